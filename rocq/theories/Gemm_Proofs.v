(** Gemm_Proofs.v -- register gemm kernels, tiled execution, gemm. *)
From Coq Require Import Arith Lia List Bool PeanoNat ZArith.
From Verif Require Import Base Base_Proofs Spec Algebra_Proofs Layout_Model Layout_Proofs Simd_Model Simd_Proofs
  Reg_Model Reg_Proofs Reg_Proofs2 Vec_Proofs Tile_Model Tile_Proofs Gemm_Model.
Import ListNotations.

Lemma FOP_impl : forall A (R R' : A -> A -> Prop) l, (forall a b, R a b -> R' a b) -> ForallOrdPairs R l -> ForallOrdPairs R' l.
Proof.
  intros A R R' l H F. induction F; constructor; auto. eapply Forall_impl; [|exact H0]. auto.
Qed.

(** ** Tiled execution *)
(** Every call writes its own cells, whatever the other calls have written to theirs. *)
Lemma tiled : forall A T (f : A -> mem T -> res (mem T)) (l : list A) (P : A -> nat -> nat -> Prop)
    (U : nat -> nat -> Prop) ad e (m0 : mem T),
  (forall c i j, In c l -> P c i j -> U i j) ->
  (forall i j, U i j -> exists c, In c l /\ P c i j) ->
  (forall i j i' j', U i j -> U i' j' -> ad i j = ad i' j' -> i = i' /\ j = j') ->
  ForallOrdPairs (fun c d => forall i j, P c i j -> ~ P d i j) l ->
  (forall c m, In c l -> (forall a, (forall i j, U i j -> ~ P c i j -> a <> ad i j) -> m a = m0 a) ->
     exists m', f c m = Ok m' /\ updated (P c) ad e m m') ->
  exists m', foldM f l m0 = Ok m' /\ updated U ad e m0 m'.
Proof.
  intros A T f l P U ad e m0 HU HC Hinj HF Hf.
  destruct (foldM_inv A (mem T) (fun pre m => updated (fun i j => exists c, In c pre /\ P c i j) ad e m0 m) f l m0)
    as (m' & E & U1 & U2).
  - split; [intros i j (c & [] & _)|auto].
  - intros pre c post m El [V1 V2].
    assert (Hc : In c l) by (rewrite El; apply in_or_app; right; left; auto).
    destruct (Hf c m Hc) as (m' & E & W1 & W2).
    { intros a Ha. apply V2. intros i j (c' & Hc' & Hp). apply Ha.
      - apply (HU c'); auto. rewrite El. apply in_or_app. auto.
      - intros Hpc. rewrite El in HF. clear - HF Hc' Hp Hpc. induction pre as [|x pre IH]; [destruct Hc'|].
        inversion HF; subst. destruct Hc' as [->|Hc'].
        + rewrite Forall_forall in H1. apply (H1 c) with i j; auto. apply in_or_app; right; left; auto.
        + apply IH; auto. }
    exists m'. split; auto. split.
    + intros i j (c' & Hc' & Hp). apply in_app_or in Hc'. destruct Hc' as [Hc'|[->|[]]]; [|apply W1; auto].
      assert (Hd : forall i' j', P c i' j' -> ~ P c' i' j').
      { intros i' j' X Y. rewrite El in HF. clear - HF Hc' X Y. induction pre as [|x pre IH]; [destruct Hc'|].
        inversion HF; subst. destruct Hc' as [->|Hc'].
        + rewrite Forall_forall in H1. apply (H1 c) with i' j'; auto. apply in_or_app; right; left; auto.
        + apply IH; auto. }
      rewrite W2.
      * apply V1. exists c'. auto.
      * intros i' j' Hp' Ea.
        destruct (Hinj i j i' j') as [-> ->]; auto.
        -- apply (HU c'); auto. rewrite El. apply in_or_app. auto.
        -- apply (HU c); auto.
        -- apply (Hd i' j'); auto.
    + intros a Ha. rewrite W2.
      * apply V2. intros i j (c' & Hc' & Hp). apply Ha. exists c'. split; auto. apply in_or_app. auto.
      * intros i j Hp. apply Ha. exists c. split; auto. apply in_or_app; right; left; auto.
  - exists m'. split; auto. split.
    + intros i j H. apply U1. auto.
    + intros a Ha. apply U2. intros i j (c & Hc & Hp). apply Ha. apply (HU c); auto.
Qed.

Section Gemm.
Variable SS : nat.
Hypothesis HSS : 0 < SS.
Variable T : Type.
Variable O : Ops T.
Notation addr := (addr SS).
Notation poff := (poff SS).
Notation reg_at := (reg_at SS T).
Notation readable := (readable SS).

(** The accumulation loop: K rank-1 updates. *)
Lemma ger_loop_ok : forall al N RM K cj f (ff : T -> T) a b m r (step : nat -> regs T -> res (regs T)),
  mptr_wf SS a -> mp_so a = columnMajor -> lane_ok SS a -> mptr_wf SS b ->
  (mp_kind b = Panel -> mp_af b = true -> mp_so b = rowMajor) ->
  (forall i k, i < RM * SS -> k < K -> al (addr a i k) = true) ->
  (forall k j, k < K -> j < N -> cj j = true -> al (addr b k j) = true) ->
  (forall v l, f v l = ff (v l)) ->
  (forall k r, step k r = (ax <- load_col SS T O al RM (VMat columnVector (poff a 0 k)) f m ;;
                         ger_update SS T O al N RM cj ax (VMat rowVector (poff b k 0)) m r)) ->
  exists r', for_ 0 K step r = Ok r' /\
    (forall i j, i < RM * SS -> j < N -> cj j = true -> reg_at r' i j =
       fma_chain O K (fun k => ff (m (addr a i k))) (fun k => m (addr b k j)) (reg_at r i j)) /\
    (forall i j, i < RM * SS -> j < N -> cj j = false -> reg_at r' i j = reg_at r i j).
Proof.
  intros al N RM K cj f ff a b m r step Hwa Hsa HL Hwb Hb Ha Hbal Hf Hstep.
  destruct (for_inv (regs T) (fun k r' =>
    (forall i j, i < RM * SS -> j < N -> cj j = true -> reg_at r' i j =
       fma_chain O k (fun k => ff (m (addr a i k))) (fun k => m (addr b k j)) (reg_at r i j)) /\
    (forall i j, i < RM * SS -> j < N -> cj j = false -> reg_at r' i j = reg_at r i j)) 0 K step r) as (r' & E & P).
  - lia.
  - split; auto.
  - intros k r0 Hk [P Q]. rewrite Hstep.
    destruct (reg_ger_ok SS HSS T O al N RM cj f ff a b k m r0) as (r1 & E & P1 & Q1); auto.
    + intros X Y Z. rewrite (Hb X Y) in Z. discriminate.
    + intros i Hi. apply Ha; lia.
    + intros j Hj C. apply Hbal; auto; lia.
    + exists r1. split; auto. split.
      * intros i j Hi Hj C. rewrite P1 by auto. cbn [fma_chain]. rewrite P by auto. reflexivity.
      * intros i j Hi Hj C. rewrite Q1 by auto. auto.
  - exists r'. split; auto.
Qed.

Definition gemm_elem (K : nat) (alpha : T) (a b : nat -> T) (beta c : T) : T :=
  ofma O beta c (omul O (fma_chain O K a b (o0 O)) alpha).

Lemma gemm_ger_a_props : forall a, mptr_wf SS a -> mp_so a = columnMajor -> lane_ok SS a ->
  let a' := gemm_ger_a SS a in
  mptr_wf SS a' /\ mp_so a' = columnMajor /\ lane_ok SS a' /\ forall i k, addr a' i k = addr a i k.
Proof.
  intros a Hw Hs HL. cbv zeta. unfold gemm_ger_a. destruct (_ && _ && _); auto.
  split; [apply punalign_wf; auto|]. split; [exact Hs|]. split.
  - intros Hk. cbn. rewrite ptr_offset_00 by auto. apply HL. exact Hk.
  - intros. apply addr_punalign; auto.
Qed.
Lemma gemm_ger_b_props : forall b, mptr_wf SS b ->
  let b' := gemm_ger_b SS b in
  mptr_wf SS b' /\ (mp_kind b' = Panel -> mp_af b' = true -> mp_so b' = rowMajor) /\ forall i k, addr b' i k = addr b i k.
Proof.
  intros b Hw. cbv zeta. unfold gemm_ger_b. destruct (mp_af b && mp_pf b && order_eqb (mp_so b) rowMajor) eqn:E.
  - split; auto. split; auto. intros _ _. destruct (mp_so b); auto. rewrite !andb_false_r in E. discriminate.
  - split; [apply punalign_wf; auto|]. split; [cbn; discriminate|]. intros. apply addr_punalign; auto.
Qed.

Lemma kgemm_ok : forall al N RM K alpha a b beta c d r m,
  mptr_wf SS a -> mp_so a = columnMajor -> lane_ok SS a -> mptr_wf SS b ->
  mptr_wf SS c -> mp_so c = columnMajor -> mptr_wf SS d -> mp_so d = columnMajor -> store_ok d ->
  readable al a (RM * SS) K -> readable al b K N -> readable al c (RM * SS) N -> readable al d (RM * SS) N ->
  distinct (RM * SS) N (addr d) ->
  exists m', kgemm SS T O al N RM K alpha a b beta c d r m = Ok m' /\
    updated (block (RM * SS) N) (addr d)
      (fun i j => gemm_elem K alpha (fun k => m (addr a i k)) (fun k => m (addr b k j)) beta (m (addr c i j))) m m'.
Proof.
  intros al N RM K alpha a b beta c d r m Hwa Hsa HL Hwb Hwc Hsc Hwd Hsd Hst Ra Rb Rc Rd Hd.
  unfold kgemm. rewrite Hsa, Hsc, Hsd. cbn [order_eqb andb negb].
  destruct (reg_reset_ok SS HSS T O N RM r) as (r1 & E1 & P1). rewrite E1. cbn [bind].
  destruct (gemm_ger_a_props a Hwa Hsa HL) as (A1 & A2 & A3 & A4).
  destruct (gemm_ger_b_props b Hwb) as (B1 & B2 & B3).
  match goal with |- context [for_ 0 K ?f r1] =>
    destruct (ger_loop_ok al N RM K always (fun x => x) (fun x => x) (gemm_ger_a SS a) (gemm_ger_b SS b) m r1 f)
      as (r2 & E2 & P2 & _); auto end.
  { intros i k Hi Hk. rewrite A4. apply Ra; auto. }
  { intros k j Hk Hj _. rewrite B3. apply Rb; auto. }
  rewrite E2. cbn [bind].
  destruct (reg_scale_ok SS HSS T O N RM alpha r2) as (r3 & E3 & P3). rewrite E3. cbn [bind].
  destruct (reg_axpy_ok SS HSS T O al N RM beta c m r3 Hwc Hsc Rc) as (r4 & E4 & P4). rewrite E4. cbn [bind].
  destruct (reg_store_region SS HSS T al N RM d r4 Hwd Hsd Hst Rd) as (W & E & R).
  destruct (region_writes T _ W _ _ _ E R) with (m := m) as (m' & Em & U1 & U2).
  { intros i j i' j' [] [] X. apply Hd; auto. }
  exists m'. split; [rewrite Em; reflexivity|]. split; auto.
  intros i j [Hi Hj]. rewrite U1 by auto. rewrite P4, P3, P2 by auto. rewrite P1 by auto.
  unfold gemm_elem. f_equal. f_equal. apply fma_chain_ext; intros k Hk; rewrite ?A4, ?B3; auto.
Qed.

Lemma kgemm_mn_ok : forall al N RM K alpha a b beta c d mm nn r m,
  mptr_wf SS a -> mp_so a = columnMajor -> lane_ok SS a -> mptr_wf SS b ->
  mptr_wf SS c -> mp_so c = columnMajor -> mptr_wf SS d -> mp_so d = columnMajor -> store_ok d ->
  mm <= RM * SS -> nn <= N ->
  readable al a (RM * SS) K -> readable al b K nn -> readable al c (nextMultiple mm SS) nn -> readable al d mm nn ->
  distinct mm nn (addr d) ->
  exists m', kgemm_mn SS T O al N RM K alpha a b beta c d mm nn r m = Ok m' /\
    updated (block mm nn) (addr d)
      (fun i j => gemm_elem K alpha (fun k => m (addr a i k)) (fun k => m (addr b k j)) beta (m (addr c i j))) m m'.
Proof.
  intros al N RM K alpha a b beta c d mm nn r m Hwa Hsa HL Hwb Hwc Hsc Hwd Hsd Hst Hm Hn Ra Rb Rc Rd Hd.
  unfold kgemm_mn. rewrite Hsa, Hsc, Hsd. cbn [order_eqb andb negb].
  destruct (reg_reset_ok SS HSS T O N RM r) as (r1 & E1 & P1). rewrite E1. cbn [bind].
  match goal with |- context [for_ 0 K ?f r1] =>
    destruct (ger_loop_ok al N RM K (fun j => j <? nn) (fun x => x) (fun x => x) a (punalign SS b) m r1 f)
      as (r2 & E2 & P2 & _); auto end.
  { apply punalign_wf; auto. }
  { cbn. discriminate. }
  { intros k j Hk Hj C. apply Nat.ltb_lt in C. rewrite addr_punalign by auto. apply Rb; auto. }
  rewrite E2. cbn [bind].
  destruct (reg_scale_ok SS HSS T O N RM alpha r2) as (r3 & E3 & P3). rewrite E3. cbn [bind].
  destruct (reg_axpy_mn_ok SS HSS T O al N RM beta c mm nn m r3 Hwc Hsc) as (r4 & E4 & P4 & _).
  { intros i j Hi Hj. apply Rc; lia. }
  rewrite E4. cbn [bind].
  destruct (reg_store_mn_region SS HSS T al N RM d r4 Hwd Hsd Hst mm nn Hm Hn Rd) as (W & E & R).
  destruct (region_writes T _ W _ _ _ E R) with (m := m) as (m' & Em & U1 & U2).
  { intros i j i' j' [] [] X. apply Hd; auto. }
  exists m'. split; [rewrite Em; reflexivity|]. split; auto.
  destruct (nextMultiple_spec mm SS HSS) as (NA & NB & NC).
  intros i j [Hi Hj]. rewrite U1 by (split; auto). rewrite P4, P3, P2 by (try lia; apply Nat.ltb_lt; lia). rewrite P1 by lia.
  unfold gemm_elem. f_equal. f_equal. apply fma_chain_ext; intros k Hk; rewrite ?addr_punalign; auto.
Qed.

(** One call of a tile functor. *)
(** One tile: the values it needs are those of its rows of A, its columns of B and its block of C. *)
Lemma gemm_call_val : forall al M N K alpha A B beta C D m0,
  mptr_wf SS A -> mp_so A = columnMajor -> lane_ok SS A -> mptr_wf SS B ->
  mptr_wf SS C -> mp_so C = columnMajor -> mptr_wf SS D -> mp_so D = columnMajor -> store_ok D ->
  readable al A (nextMultiple M SS) K -> readable al B K N -> readable al C (nextMultiple M SS) N -> readable al D M N ->
  distinct M N (addr D) ->
  forall c m, In c (tile SS TILE_STEP (cachePreferredTraversal D) M N) ->
  (forall i k, k_i c <= i < k_i c + k_m c -> k < K -> m (addr A i k) = m0 (addr A i k)) ->
  (forall k j, k_j c <= j < k_j c + k_nn c -> k < K -> m (addr B k j) = m0 (addr B k j)) ->
  (forall i j, in_call c i j -> m (addr C i j) = m0 (addr C i j)) ->
  exists m', gemm_call SS T O al K alpha A B beta C D c m = Ok m' /\
    updated (in_call c) (addr D)
      (fun i j => gemm_elem K alpha (fun k => m0 (addr A i k)) (fun k => m0 (addr B k j)) beta (m0 (addr C i j))) m m'.
Proof.
  intros al M N K alpha A B beta C D m0 Hwa Hsa HL Hwb Hwc Hsc Hwd Hsd Hst Ra Rb Rc Rd Hd c m Hc GA GB GC.
  destruct (tile_ok_disj_cover SS HSS TILE_STEP ltac:(unfold TILE_STEP; lia) (cachePreferredTraversal D) M N) as (TA & _ & _).
  specialize (TA c Hc).
    destruct TA as (T1 & T2 & (q & T3) & (q' & T4) & T5 & T6 & T7 & T8 & T9 & T10 & T11).
    set (i0 := k_i c) in *. set (j0 := k_j c) in *.
    assert (Hi0 : i0 mod SS = 0) by (apply ex_mod0 with q; lia).
    assert (EA : forall x k, addr (poff A i0 0) x k = addr A (i0 + x) k).
    { intros x k. rewrite addr_poff; auto. intros _ _. rewrite Hsa. auto. }
    assert (EB : forall k y, addr (poff (punalign SS B) 0 j0) k y = addr B k (j0 + y)).
    { intros k y. rewrite addr_poff; auto.
      - apply addr_punalign; auto.
      - apply punalign_wf; auto.
      - intros _ X. discriminate X. }
    assert (EC : forall x y, addr (poff C i0 j0) x y = addr C (i0 + x) (j0 + y)).
    { intros x y. rewrite addr_poff; auto. intros _ _. rewrite Hsc. auto. }
    assert (ED : forall x y, addr (poff D i0 j0) x y = addr D (i0 + x) (j0 + y)).
    { intros x y. rewrite addr_poff; auto. intros _ _. rewrite Hsd. auto. }
    assert (Hup : i0 + k_rm c * SS <= nextMultiple M SS).
    { destruct (nextMultiple_spec M SS HSS) as (X1 & X2 & X3). apply mod0_ex in X2; auto. destruct X2 as [z Ez].
      rewrite Ez in *. rewrite T3 in *. assert (q + k_rm c <= z); [|nia].
      assert (SS * (q + k_rm c) < SS * (z + 1)) by nia. nia. }
    assert (HA : forall x k, x < k_m c -> k < K -> m (addr A (i0 + x) k) = m0 (addr A (i0 + x) k)) by (intros; apply GA; auto; lia).
    assert (HB : forall k y, y < k_nn c -> k < K -> m (addr B k (j0 + y)) = m0 (addr B k (j0 + y))) by (intros; apply GB; auto; lia).
    assert (HC : forall x y, x < k_m c -> y < k_nn c -> i0 + x < M -> j0 + y < N -> m (addr C (i0 + x) (j0 + y)) = m0 (addr C (i0 + x) (j0 + y))).
    { intros x y Hx Hy HxM HyN. apply GC. unfold in_call. fold i0 j0. lia. }
    assert (WA : mptr_wf SS (poff A i0 0)) by (apply poff_wf_cm; auto).
    assert (WB : mptr_wf SS (poff (punalign SS B) 0 j0)).
    { apply poff_wf; auto. apply punalign_wf; auto. intros X; discriminate X. }
    assert (WC : mptr_wf SS (poff C i0 j0)) by (apply poff_wf_cm; auto).
    assert (WD : mptr_wf SS (poff D i0 j0)) by (apply poff_wf_cm; auto).
    assert (LA : lane_ok SS (poff A i0 0)) by (apply lane_poff; auto).
    assert (FIN : forall m', (exists f, f m = Ok m' /\ updated (block (k_m c) (k_nn c)) (addr (poff D i0 j0))
        (fun i j => gemm_elem K alpha (fun k => m (addr (poff A i0 0) i k)) (fun k => m (addr (poff (punalign SS B) 0 j0) k j)) beta (m (addr (poff C i0 j0) i j))) m m') ->
        updated (in_call c) (addr D) (fun i j => gemm_elem K alpha (fun k => m0 (addr A i k)) (fun k => m0 (addr B k j)) beta (m0 (addr C i j))) m m').
    { intros m' (f & _ & U1 & U2). split.
      - intros i j Hij. unfold in_call in Hij. fold i0 j0 in Hij.
        replace i with (i0 + (i - i0)) by lia. replace j with (j0 + (j - j0)) by lia.
        rewrite <- ED. rewrite U1 by (unfold block; lia). unfold gemm_elem. rewrite EC, HC by lia. f_equal. f_equal.
        apply fma_chain_ext; intros k Hk; rewrite ?EA, ?EB, ?HA, ?HB by lia; reflexivity.
      - intros a Ha. apply U2. intros i j [Hi Hj] X. rewrite ED in X. apply (Ha (i0 + i) (j0 + j)); auto.
        unfold in_call. fold i0 j0. lia. }
    unfold gemm_call. fold i0 j0. destruct (k_full c) eqn:F.
    + assert (X : k_m c = k_rm c * SS /\ k_nn c = k_n c) by tauto. destruct X as [X1 X2].
      destruct (kgemm_ok al (k_n c) (k_rm c) K alpha (poff A i0 0) (poff (punalign SS B) 0 j0) beta (poff C i0 j0) (poff D i0 j0)
        (reg0 T O) m) as (m' & E & U); auto.
      * intros x k Hx Hk. rewrite EA. apply Ra; lia.
      * intros k y Hk Hy. rewrite EB. apply Rb; lia.
      * intros x y Hx Hy. rewrite EC. apply Rc; lia.
      * intros x y Hx Hy. rewrite ED. apply Rd; lia.
      * intros x y x' y' Hx Hy Hx' Hy' Y. rewrite !ED in Y. apply Hd in Y; lia.
      * exists m'. split; [exact E|]. apply FIN. exists (fun _ => Ok m'). split; auto. rewrite X1, X2. exact U.
    + destruct (kgemm_mn_ok al (k_n c) (k_rm c) K alpha (poff A i0 0) (poff (punalign SS B) 0 j0) beta (poff C i0 j0) (poff D i0 j0)
        (k_m c) (k_nn c) (reg0 T O) m) as (m' & E & U); auto; try lia.
      * intros x k Hx Hk. rewrite EA. apply Ra; lia.
      * intros k y Hk Hy. rewrite EB. apply Rb; lia.
      * assert (nextMultiple (k_m c) SS <= k_rm c * SS) by (apply nextMultiple_least; [auto|lia|apply Nat.mod_mul; lia]).
        intros x y Hx Hy. rewrite EC. apply Rc; lia.
      * intros x y Hx Hy. rewrite ED. apply Rd; lia.
      * intros x y x' y' Hx Hy Hx' Hy' Y. rewrite !ED in Y. apply Hd in Y; lia.
      * exists m'. split; [exact E|]. apply FIN. exists (fun _ => Ok m'). split; auto.
Qed.

Lemma gemm_call_ok : forall al M N K alpha A B beta C D m0,
  mptr_wf SS A -> mp_so A = columnMajor -> lane_ok SS A -> mptr_wf SS B ->
  mptr_wf SS C -> mp_so C = columnMajor -> mptr_wf SS D -> mp_so D = columnMajor -> store_ok D ->
  readable al A (nextMultiple M SS) K -> readable al B K N -> readable al C (nextMultiple M SS) N -> readable al D M N ->
  distinct M N (addr D) -> separate M N (addr D) M K (addr A) -> separate M N (addr D) K N (addr B) ->
  (forall i j i' j', block M N i j -> block M N i' j' -> addr D i j = addr C i' j' -> i = i' /\ j = j') ->
  forall c m, In c (tile SS TILE_STEP (cachePreferredTraversal D) M N) ->
  (forall a, (forall i j, block M N i j -> ~ in_call c i j -> a <> addr D i j) -> m a = m0 a) ->
  exists m', gemm_call SS T O al K alpha A B beta C D c m = Ok m' /\
    updated (in_call c) (addr D)
      (fun i j => gemm_elem K alpha (fun k => m0 (addr A i k)) (fun k => m0 (addr B k j)) beta (m0 (addr C i j))) m m'.
Proof.
  intros al M N K alpha A B beta C D m0 Hwa Hsa HL Hwb Hwc Hsc Hwd Hsd Hst Ra Rb Rc Rd Hd SA SB SC c m Hc Hag.
  destruct (tile_ok_disj_cover SS HSS TILE_STEP ltac:(unfold TILE_STEP; lia) (cachePreferredTraversal D) M N) as (TA & _ & _).
  specialize (TA c Hc). unfold call_ok in TA. apply (gemm_call_val al M N); auto.
  - intros i k Hi Hk. apply Hag. intros i' j' [Hi' Hj'] _ X. symmetry in X. apply (SA i' j' i k); auto. lia.
  - intros k j Hj Hk. apply Hag. intros i' j' [Hi' Hj'] _ X. symmetry in X. apply (SB i' j' k j); auto. lia.
  - intros i j Hij. apply Hag. intros i' j' Hij' Hn X. destruct (SC i' j' i j) as [-> ->]; auto. unfold in_call in Hij. split; lia.
Qed.

(** Pointer-level gemm. *)
Lemma gemm_ptr_ok : forall al M N K alpha A B beta C D m0,
  mptr_wf SS A -> mp_so A = columnMajor -> lane_ok SS A -> mptr_wf SS B ->
  mptr_wf SS C -> mp_so C = columnMajor -> mptr_wf SS D -> mp_so D = columnMajor -> store_ok D ->
  readable al A (nextMultiple M SS) K -> readable al B K N -> readable al C (nextMultiple M SS) N -> readable al D M N ->
  distinct M N (addr D) -> separate M N (addr D) M K (addr A) -> separate M N (addr D) K N (addr B) ->
  (forall i j i' j', block M N i j -> block M N i' j' -> addr D i j = addr C i' j' -> i = i' /\ j = j') ->
  exists m', gemm_ptr SS T O al M N K alpha A B beta C D m0 = Ok m' /\
    updated (block M N) (addr D)
      (fun i j => gemm_elem K alpha (fun k => m0 (addr A i k)) (fun k => m0 (addr B k j)) beta (m0 (addr C i j))) m0 m'.
Proof.
  intros al M N K alpha A B beta C D m0 Hwa Hsa HL Hwb Hwc Hsc Hwd Hsd Hst Ra Rb Rc Rd Hd SA SB SC.
  unfold gemm_ptr. rewrite Hsd. cbn [order_eqb negb].
  destruct (tile_ok_disj_cover SS HSS TILE_STEP ltac:(unfold TILE_STEP; lia) (cachePreferredTraversal D) M N) as (TA & TB & TC).
  apply (tiled call T _ _ in_call (block M N) (addr D)).
  - intros c i j Hc Hij. apply TA in Hc. unfold call_ok, in_call, block in *. lia.
  - intros i j [Hi Hj]. apply TC; auto.
  - intros i j i' j' [] [] X. apply Hd; auto.
  - eapply FOP_impl; [|exact TB]. intros c d X i j Y Z. apply (X i j); auto.
  - intros c m Hc Hag. apply (gemm_call_ok al M N); auto.
Qed.
End Gemm.
