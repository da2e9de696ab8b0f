(** LU_Row_Proofs.v -- the row-major forms of getf2 and getrf. *)
From Coq Require Import Arith Lia List Bool PeanoNat.
From Verif Require Import Base Base_Proofs Spec Algebra_Proofs Scan_Proofs Tri_Model Ref_Proofs LU_Model LU_Theory LU_Proofs.

Lemma loop_shift : forall St n k lo (f : nat -> St -> res St) s, loop n (k + lo) f s = loop n lo (fun i => f (k + i)) s.
Proof.
  intros St n. induction n as [|n IH]; intros k lo f s; auto. cbn [loop]. destruct (f (k + lo) s); cbn [bind]; auto.
  rewrite <- Nat.add_succ_r. apply IH.
Qed.
Lemma for_shift : forall St k hi (f : nat -> St -> res St) s, for_ k hi f s = for_ 0 (hi - k) (fun i => f (k + i)) s.
Proof. intros. unfold for_. rewrite Nat.sub_0_r. rewrite <- loop_shift, Nat.add_0_r. reflexivity. Qed.

Definition el_rm {T} (O : Ops T) (l u a : T) : T := oadd O a (omul O (omul O (om1 O) l) u).
Definition el_sub {T} (O : Ops T) (l u a : T) : T := osub O a (omul O l u).

Section Row.
Variable T : Type.
Variable O : Ops T.
Variables (al : alloc) (A : dmat).
Notation M := (d_m A). Notation N := (d_n A). Notation ad := (d_at A).
Hypothesis DI : distinct M N ad.
Hypothesis AL : allocated al M N ad.

Lemma div_d_ok : forall k d (m : mem T), k < M -> k < N ->
  exists m', for_ (k + 1) M (fun i m => u <- rd al m (ad i k) ;; wr al m (ad i k) (odiv O u d)) m = Ok m' /\
    updated (block M N) ad (fun i j => if (k <? i) && (j =? k) then odiv O (m (ad i k)) d else m (ad i j)) m m'.
Proof.
  intros k d m Hk HkN.
  match goal with |- exists m', for_ _ _ ?ff m = _ /\ _ =>
   destruct (for_inv (mem T) (fun t m' => (forall i j, i < M -> j < N -> m' (ad i j) = if (k <? i) && (i <? t) && (j =? k) then odiv O (m (ad i k)) d else m (ad i j)) /\
     (forall a, (forall i j, i < M -> j < N -> a <> ad i j) -> m' a = m a)) (k + 1) M ff m) as (m' & E & H1 & H2) end; try lia.
  - split; auto. intros i j Hi Hj. destruct (Nat.ltb_spec k i), (Nat.ltb_spec i (k + 1)); cbn [andb]; auto; lia.
  - intros t m1 Ht [H1 H2]. rewrite !rd_ok by (apply AL; lia). cbn [bind]. rewrite wr_ok by (apply AL; lia).
    eexists. split; [reflexivity|]. split.
    + intros i j Hi Hj. destruct (Nat.eq_dec i t) as [->|Ni]; [destruct (Nat.eq_dec j k) as [->|Nj]|].
      * rewrite mupd_eq, !H1 by lia. rewrite Nat.ltb_irrefl, andb_false_r. cbn [andb].
        rewrite (proj2 (Nat.ltb_lt k t)), (proj2 (Nat.ltb_lt t (Datatypes.S t))), Nat.eqb_refl by lia. reflexivity.
      * rewrite mupd_neq by (intros Q; apply DI in Q; lia). rewrite H1 by auto. destruct (Nat.eqb_spec j k); [lia|]. rewrite !andb_false_r. reflexivity.
      * rewrite mupd_neq by (intros Q; apply DI in Q; lia). rewrite H1 by auto.
        destruct (Nat.ltb_spec i t), (Nat.ltb_spec i (Datatypes.S t)); try lia; reflexivity.
    + intros a Ha. rewrite mupd_neq by (apply Ha; lia). auto.
  - exists m'. split; auto. split.
    + intros i j [Hi Hj]. rewrite H1 by auto. rewrite (proj2 (Nat.ltb_lt i M)) by auto. rewrite andb_true_r. reflexivity.
    + intros a Ha. apply H2. intros i j Hi Hj. apply Ha. split; auto.
Qed.

(** The rank-1 update of the trailing matrix, rows outer. *)
Lemma rank1_rows_ok : forall k (f : T -> T -> T -> T) (m : mem T), k < M -> k < N ->
  exists m', for_ 0 (M - k - 1) (fun i m => for_ 0 (N - k - 1) (fun j m =>
         a <- rd al m (ad (k + 1 + i) (k + 1 + j)) ;; x <- rd al m (ad (k + 1 + i) k) ;; y <- rd al m (ad k (k + 1 + j)) ;;
         wr al m (ad (k + 1 + i) (k + 1 + j)) (f x y a)) m) m = Ok m' /\
    updated (block M N) ad (fun i j => if (k <? i) && (k <? j) then f (m (ad i k)) (m (ad k j)) (m (ad i j)) else m (ad i j)) m m'.
Proof.
  intros k f m Hk HkN.
  destruct (scan2_ok T al (M - k - 1) (N - k - 1) (fun i j => ad (k + 1 + i) (k + 1 + j))
    (fun i j m => a <- rd al m (ad (k + 1 + i) (k + 1 + j)) ;; x <- rd al m (ad (k + 1 + i) k) ;; y <- rd al m (ad k (k + 1 + j)) ;;
         wr al m (ad (k + 1 + i) (k + 1 + j)) (f x y a))
    (fun i j => f (m (ad (k + 1 + i) k)) (m (ad k (k + 1 + j))) (m (ad (k + 1 + i) (k + 1 + j)))) m) as (m' & E & U1 & U2).
  - intros i j i' j' Hi Hj Hi' Hj' Q. apply DI in Q; lia.
  - intros i j m1 Hi Hj [V1 V2]. rewrite !rd_ok by (apply AL; lia). cbn [bind]. rewrite wr_ok by (apply AL; lia).
    rewrite !V2; auto; intros i' j' B Q; unfold before in B; apply DI in Q; lia.
  - exists m'. split; auto. split.
    + intros i j [Hi Hj]. destruct (Nat.ltb_spec k i); [destruct (Nat.ltb_spec k j)|]; cbn [andb].
      * specialize (U1 (i - (k + 1)) (j - (k + 1))). cbv beta in U1.
        replace (k + 1 + (i - (k + 1))) with i in U1 by lia. replace (k + 1 + (j - (k + 1))) with j in U1 by lia. apply U1. split; lia.
      * apply U2. intros i' j' [Hi' Hj'] Q. apply DI in Q; lia.
      * apply U2. intros i' j' [Hi' Hj'] Q. apply DI in Q; lia.
    + intros a Ha. apply U2. intros i' j' [Hi' Hj']. apply Ha. split; lia.
Qed.
(** ... columns outer. *)
Lemma rank1_cols_ok : forall k (f : T -> T -> T -> T) (m : mem T), k < M -> k < N ->
  exists m', for_ (k + 1) N (fun j m => for_ (k + 1) M (fun i m =>
         a <- rd al m (ad i j) ;; x <- rd al m (ad i k) ;; y <- rd al m (ad k j) ;;
         wr al m (ad i j) (f x y a)) m) m = Ok m' /\
    updated (block M N) ad (fun i j => if (k <? i) && (k <? j) then f (m (ad i k)) (m (ad k j)) (m (ad i j)) else m (ad i j)) m m'.
Proof.
  intros k f m Hk HkN. rewrite for_shift.
  rewrite (for_ext (mem T) 0 (N - (k + 1)) _ (fun j m => for_ 0 (M - (k + 1)) (fun i m =>
         a <- rd al m (ad (k + 1 + i) (k + 1 + j)) ;; x <- rd al m (ad (k + 1 + i) k) ;; y <- rd al m (ad k (k + 1 + j)) ;;
         wr al m (ad (k + 1 + i) (k + 1 + j)) (f x y a)) m)).
  2:{ intros j m1 Hj. apply for_shift. }
  destruct (scan2_ok T al (N - (k + 1)) (M - (k + 1)) (fun j i => ad (k + 1 + i) (k + 1 + j))
    (fun j i m => a <- rd al m (ad (k + 1 + i) (k + 1 + j)) ;; x <- rd al m (ad (k + 1 + i) k) ;; y <- rd al m (ad k (k + 1 + j)) ;;
         wr al m (ad (k + 1 + i) (k + 1 + j)) (f x y a))
    (fun j i => f (m (ad (k + 1 + i) k)) (m (ad k (k + 1 + j))) (m (ad (k + 1 + i) (k + 1 + j)))) m) as (m' & E & U1 & U2).
  - intros i j i' j' Hi Hj Hi' Hj' Q. apply DI in Q; lia.
  - intros i j m1 Hi Hj [V1 V2]. rewrite !rd_ok by (apply AL; lia). cbn [bind]. rewrite wr_ok by (apply AL; lia).
    rewrite !V2; auto; intros i' j' B Q; unfold before in B; apply DI in Q; lia.
  - exists m'. split; auto. split.
    + intros i j [Hi Hj]. destruct (Nat.ltb_spec k i); [destruct (Nat.ltb_spec k j)|]; cbn [andb].
      * specialize (U1 (j - (k + 1)) (i - (k + 1))). cbv beta in U1.
        replace (k + 1 + (i - (k + 1))) with i in U1 by lia. replace (k + 1 + (j - (k + 1))) with j in U1 by lia. apply U1. split; lia.
      * apply U2. intros i' j' [Hi' Hj'] Q. apply DI in Q; lia.
      * apply U2. intros i' j' [Hi' Hj'] Q. apply DI in Q; lia.
    + intros a Ha. apply U2. intros i' j' [Hi' Hj']. apply Ha. split; lia.
Qed.
Lemma elim_of : forall el k (a : nat -> nat -> T) (m1 m2 m3 : mem T),
  k < M -> k < N ->
  (forall i j, i < M -> j < N -> m1 (ad i j) = a i j) ->
  updated (block M N) ad (fun i j => if (k <? i) && (j =? k) then odiv O (m1 (ad i k)) (a k k) else m1 (ad i j)) m1 m2 ->
  updated (block M N) ad (fun i j => if (k <? i) && (k <? j) then el (m2 (ad i k)) (m2 (ad k j)) (m2 (ad i j)) else m2 (ad i j)) m2 m3 ->
  updated (block M N) ad (eliminate O el k a) m1 m3.
Proof.
  intros el k a m1 m2 m3 Hk HkN V1 [V2 F2] [V3 F3]. split.
  - intros i j [Hi Hj]. rewrite V3 by (split; auto). unfold eliminate. cbv zeta.
    assert (W : forall i j, i < M -> j < N -> m2 (ad i j) = if (k <? i) && (j =? k) then odiv O (a i k) (a k k) else a i j).
    { intros i' j' Hi' Hj'. rewrite V2 by (split; auto). rewrite (V1 i' k), (V1 i' j') by auto. reflexivity. }
    rewrite !W by auto. rewrite Nat.ltb_irrefl, Nat.eqb_refl. cbn [andb]. rewrite andb_true_r.
    destruct (Nat.ltb_spec k i); cbn [andb]; auto. destruct (Nat.eqb_spec j k) as [->|]; [rewrite Nat.ltb_irrefl; reflexivity|].
    destruct (k <? j); reflexivity.
  - intros x Hx. rewrite F3, F2; auto.
Qed.

Lemma getf2_rm_step_ok : forall k (m : mem T) p, k < M -> k < N ->
  let a := fun i j => m (ad i j) in
  exists ip, k <= ip < M /\ pivot_max O (M - k) (fun i => a (k + i) k) (ip - k) /\
   ((oeqb O (a ip k) (o0 O) = true /\ getf2_rm_step T O al A k (m, p) = Throw InvalidArgument) \/
    (oeqb O (a ip k) (o0 O) = false /\ exists m', getf2_rm_step T O al A k (m, p) = Ok (m', pupd p k ip) /\
       updated (block M N) ad (eliminate O (el_rm O) k (swap_rows k ip a)) m m')).
Proof.
  intros k m p Hk HkN a. unfold getf2_rm_step, iamax_d. cbn [v_size v_at].
  destruct (Nat.eqb_spec (M - k) 0); [lia|].
  destruct (iamax_loop_ok T O al (M - k) (ad (k + 0) k) (fun i => ad (k + i) k) m) as (r & Er & Hr & Fr); try lia; auto.
  { intros i Hi. apply AL; lia. }
  rewrite Er. cbn [bind]. exists (r + k). split; [lia|]. split.
  { replace (r + k - k) with r by lia. exact Fr. }
  set (ip := r + k) in *.
  assert (SW : exists m1, (if negb (ip =? k) then swap_d T al (drow A k) (drow A ip) m else Ok m) = Ok m1 /\
                updated (block M N) ad (swap_rows k ip a) m m1).
  { destruct (Nat.eqb_spec ip k) as [Eq|Ne]; cbn [negb].
    - exists m. split; auto. split; auto. intros i j Hij. rewrite Eq. unfold swap_rows. rewrite interchange_same. reflexivity.
    - unfold swap_d. cbn [drow v_size v_at]. rewrite Nat.eqb_refl. cbn [negb]. destruct (Nat.ltb_spec 0 N); [|lia].
      apply swap_rows_ok; auto; unfold ip; lia. }
  destruct SW as (m1 & E1 & V1 & F1). rewrite E1. cbn [bind]. rewrite rd_ok by (apply AL; auto). cbn [bind].
  rewrite (V1 k k) by (split; auto).
  assert (Ed : swap_rows k ip a k k = a ip k) by (unfold swap_rows; rewrite interchange_l; reflexivity). rewrite Ed.
  destruct (oeqb O (a ip k) (o0 O)) eqn:Z; [left; auto|right]. split; auto.
  destruct (div_d_ok k (a ip k) m1 Hk HkN) as (m2 & E2 & U2). rewrite E2. cbn [bind].
  destruct (rank1_rows_ok k (el_rm O) m2 Hk HkN) as (m3 & E3 & U3). unfold el_rm in E3 at 1. rewrite E3. cbn [bind].
  exists m3. split; auto. rewrite <- Ed in U2.
  destruct (elim_of (el_rm O) k (swap_rows k ip a) m1 m2 m3) as [W1 W2]; auto.
  { intros i j Hi Hj. apply V1. split; auto. }
  split; auto. intros x Hx. rewrite W2, F1; auto.
Qed.

(** The loop, for any step with this behaviour: partial pivoting. *)
Lemma lu_loop_ok : forall el (step : nat -> mem T * piv -> res (mem T * piv)) n (m0 : mem T) q0, n <= M -> n <= N ->
  (forall k (m : mem T) p, k < n -> let a := fun i j => m (ad i j) in
   exists ip, k <= ip < M /\ pivot_max O (M - k) (fun i => a (k + i) k) (ip - k) /\
   ((oeqb O (a ip k) (o0 O) = true /\ step k (m, p) = Throw InvalidArgument) \/
    (oeqb O (a ip k) (o0 O) = false /\ exists m', step k (m, p) = Ok (m', pupd p k ip) /\
       updated (block M N) ad (eliminate O el k (swap_rows k ip a)) m m'))) ->
  let A0 := fun i j => m0 (ad i j) in
  (exists m' q', for_ 0 n step (m0, q0) = Ok (m', q') /\
     lu_run O el M q' n A0 /\
     updated (block M N) ad (lu_after O el q' n A0) m0 m' /\
     (forall i, n <= i -> q' i = q0 i)) \/
  (for_ 0 n step (m0, q0) = Throw InvalidArgument /\ lu_stuck O el M n A0).
Proof.
  intros el step n m0 q0 HnM HnN Hstep A0.
  destruct (for_inv_throw (mem T * piv) (fun k s => lu_run O el M (snd s) k A0 /\
     updated (block M N) ad (lu_after O el (snd s) k A0) m0 (fst s) /\
     (forall i, k <= i -> snd s i = q0 i)) (lu_stuck O el M n A0) InvalidArgument 0 n step (m0, q0))
   as [((m' & q') & E & R & U & F)|[E X]]; try lia.
  - cbn [fst snd]. split; [intros l Hl; lia|]. split; [split; auto|auto].
  - intros k [m q] Hk (R & [U1 U2] & F). cbn [fst snd] in *.
    destruct (Hstep k m q) as (ip & Hip & FM & Z); try lia.
    set (qk' := pupd q k ip).
    assert (Eq : forall l, l <> k -> qk' l = q l).
    { intros l Hl. unfold qk', pupd. destruct (Nat.eqb_spec l k); auto; lia. }
    assert (Eqk : qk' k = ip) by (unfold qk', pupd; rewrite Nat.eqb_refl; auto).
    assert (El : forall l i j, l <= k -> lu_after O el qk' l A0 i j = lu_after O el q l A0 i j).
    { intros l i j Hl. apply lu_piv_ext. intros l' Hl'. apply Eq. lia. }
    assert (R' : lu_run O el M qk' k A0).
    { intros l Hl. destruct (R l Hl) as [[P1 P2] P3]. rewrite El, Eq by lia. split; auto. split; [rewrite Eq by lia; auto|].
      rewrite Eq by lia. eapply pivot_max_ext; [|exact P2]. intros i Hi. cbn. apply El. lia. }
    assert (LP : lu_pivot O el M qk' k A0).
    { split; rewrite Eqk; auto. eapply pivot_max_ext; [|exact FM]. intros i Hi. cbn beta. rewrite El by lia. symmetry. apply U1. split; lia. }
    assert (Z0 : m (ad ip k) = lu_after O el qk' k A0 (qk' k) k).
    { rewrite Eqk, El by lia. apply U1. split; lia. }
    destruct Z as [[Z E]|[Z (m' & E & V1 & V2)]].
    + right. split; auto. exists qk', k. split; [lia|]. split; auto. split; auto. rewrite <- Z0. exact Z.
    + left. eexists. split; [exact E|]. cbn [fst snd]. fold qk'. split; [|split; [split|]].
      * intros l Hl. destruct (Nat.eq_dec l k) as [->|]; [|apply R'; lia]. split; auto. rewrite <- Z0. exact Z.
      * intros i j [Hi Hj]. rewrite V1 by (split; auto). cbn [LU_Theory.lu_after]. rewrite Eqk.
        apply (eliminate_ext O el k _ _ M N); auto; try lia. intros i' j' Hi' Hj'. unfold swap_rows.
        rewrite El by lia. apply U1. split; auto. apply interchange_lt; auto; lia.
      * intros x Hx. rewrite V2, U2; auto.
      * intros i Hi. rewrite Eq by lia. apply F. lia.
  - left. exists m', q'. auto.
  - right. auto.
Qed.
Lemma getf2_rm_ok : forall (m0 : mem T) q0,
  let A0 := fun i j => m0 (ad i j) in
  (exists m' q', getf2_rm T O al A (m0, q0) = Ok (m', q') /\
     lu_run O (el_rm O) M q' (min M N) A0 /\
     updated (block M N) ad (lu_after O (el_rm O) q' (min M N) A0) m0 m' /\
     (forall i, min M N <= i -> q' i = q0 i)) \/
  (getf2_rm T O al A (m0, q0) = Throw InvalidArgument /\ lu_stuck O (el_rm O) M (min M N) A0).
Proof.
  intros m0 q0 A0. unfold getf2_rm. apply lu_loop_ok; try lia. intros k m p Hk a. apply getf2_rm_step_ok; lia.
Qed.

Lemma getrf_rm_step_ok : forall k (m : mem T) p, k < M -> k < N ->
  exists m', getrf_rm_step T O al A k (m, p) = Ok (m', pupd p k k) /\
       updated (block M N) ad (eliminate O (el_sub O) k (fun i j => m (ad i j))) m m'.
Proof.
  intros k m p Hk HkN. unfold getrf_rm_step. rewrite rd_ok by (apply AL; auto). cbn [bind].
  destruct (div_d_ok k (m (ad k k)) m Hk HkN) as (m2 & E2 & U2). rewrite E2. cbn [bind].
  destruct (rank1_cols_ok k (el_sub O) m2 Hk HkN) as (m3 & E3 & U3). unfold el_sub in E3 at 1. rewrite E3. cbn [bind].
  exists m3. split; auto. apply (elim_of (el_sub O) k _ m m2 m3); auto.
Qed.
Lemma getrf_rm_ok : forall (m0 : mem T) q0,
  let A0 := fun i j => m0 (ad i j) in
  exists m' q', getrf_rm T O al A (m0, q0) = Ok (m', q') /\
     updated (block M N) ad (lu_after O (el_sub O) (fun l => l) (min M N) A0) m0 m' /\
     (forall i, q' i = if i <? min M N then i else q0 i).
Proof.
  intros m0 q0 A0. unfold getrf_rm.
  destruct (for_inv (mem T * piv) (fun k s => updated (block M N) ad (lu_after O (el_sub O) (fun l => l) k A0) m0 (fst s) /\
     (forall i, snd s i = if i <? k then i else q0 i)) 0 (min M N) (getrf_rm_step T O al A) (m0, q0)) as ((m' & q') & E & U & F); try lia.
  - split; [split; auto|auto].
  - intros k [m q] Hk [[U1 U2] F]. cbn [fst snd] in *.
    destruct (getrf_rm_step_ok k m q) as (m' & E & V1 & V2); try lia. eexists. split; [exact E|]. cbn [fst snd]. split; [split|].
    + intros i j [Hi Hj]. rewrite V1 by (split; auto). cbn [lu_after]. apply (eliminate_ext O (el_sub O) k _ _ M N); auto; try lia.
      intros i' j' Hi' Hj'. unfold swap_rows. rewrite interchange_same. apply U1. split; auto.
    + intros x Hx. rewrite V2, U2; auto.
    + intros i. unfold pupd. rewrite F. destruct (Nat.eqb_spec i k), (Nat.ltb_spec i k), (Nat.ltb_spec i (Datatypes.S k)); lia || auto.
  - exists m', q'. auto.
Qed.
End Row.
