(** Properties_Threads.v -- C76: threads of calls under every schedule. *)
From Coq Require Import Arith Lia List Bool PeanoNat ZArith.
From Verif Require Import Base Base_Proofs Spec Footprint_Spec Threads_Spec Algebra_Proofs Instances Layout_Model Layout_Proofs Simd_Model Simd_Proofs Vec_Proofs Tile_Model Tile_Proofs Arg_Proofs
  Reg_Model Gemm_Model Gemm_Proofs Properties_Gemm Assign_Model Properties_Assign Properties_Footprint Properties_Compose.
Import ListNotations.

Section Schedules.
Context {T : Type}.
Notation action := (@action T).

(** The number of turns of thread t in the schedule s. *)
Fixpoint turns (t : nat) (s : list nat) : nat := match s with [] => 0 | u :: s => (if u =? t then 1 else 0) + turns t s end.

(** What holds between the shared memory m and the memories mt t in which every thread runs alone: they agree on the addresses thread t knows (K t). *)
Definition agreement (ts : @threads T) (K : nat -> nat -> Prop) (m : mem T) (mt : nat -> mem T) : Prop :=
  (forall t x, K t x -> m x = mt t x) /\
  (forall t x, K t x -> owned ts t x) /\
  (forall t c x, In c (ts t) -> a_writes c x -> owned ts t x) /\
  (forall t, Forall confined (ts t)) /\ (forall t, reads_specified (K t) (ts t)).

Lemma run_inv : forall s ts K m mt, agreement ts K m mt ->
  exists ts' m', scheduled s ts m = Ok (ts', m') /\
    forall t, exists done mt', ts t = done ++ ts' t /\ length done = min (turns t s) (length (ts t)) /\ in_order done (mt t) = Ok mt' /\
      forall x, specified (K t) done x -> m' x = mt' x.
Proof.
  induction s as [|t s IH]; intros ts K m mt (I1 & I2 & I3 & I4 & I5).
  - exists ts, m. split; auto. intros t. exists [], (mt t). cbn. repeat split; auto.
  - cbn [scheduled]. destruct (ts t) as [|c rest] eqn:Et.
    + destruct (IH ts K m mt) as (ts' & m' & E & Q); [unfold agreement; auto|]. exists ts', m'. split; auto. intros u.
      destruct (Q u) as (done & mt' & Q1 & Q2 & Q3 & Q4). exists done, mt'. repeat split; auto. cbn [turns].
      destruct (Nat.eqb_spec t u) as [<-|]; [|exact Q2]. rewrite Et in *. cbn in *. destruct done; [cbn; lia|discriminate].
    + assert (Cc : confined c) by (specialize (I4 t); rewrite Et in I4; inversion I4; auto).
      assert (Hc : In c (ts t)) by (rewrite Et; left; auto).
      pose proof (I5 t) as R5. rewrite Et in R5. cbn [reads_specified] in R5. destruct R5 as [R5 R5'].
      destruct Cc as [RW Cc]. destruct (Cc m (mt t)) as (m1 & mt1 & E1 & E2 & V & F1 & F2).
      { intros x Hx. apply I1. apply R5; auto. }
      rewrite E1. cbn [bind].
      set (K' := fun u x => if u =? t then a_result c x \/ (K t x /\ ~ a_writes c x) else K u x).
      set (mt' := fun u => if u =? t then mt1 else mt u).
      assert (SUB : forall u d, In d (advance ts t rest u) -> In d (ts u)).
      { intros u d. unfold advance. destruct (Nat.eqb_spec u t) as [->|]; auto. rewrite Et. intros; right; auto. }
      assert (OWN : forall u x, owned ts u x -> owned (advance ts t rest) u x) by (intros u x H v d Hv Hd; apply (H v d); auto).
      destruct (IH (advance ts t rest) K' m1 mt') as (ts' & m' & E & Q).
      { split; [|split; [|split; [|split]]].
        - intros u x HK. unfold K', mt' in *. destruct (Nat.eqb_spec u t) as [->|Hu].
          + destruct HK as [HK|[HK HW]]; [apply V; auto|]. rewrite F1, F2 by auto. auto.
          + rewrite F1; [apply I1; auto|]. apply (I2 u x HK t c); auto.
        - intros u x HK. unfold K' in HK. destruct (Nat.eqb_spec u t) as [->|Hu]; auto. apply OWN. destruct HK as [HK|[HK HW]]; auto. apply (I3 t c); auto.
        - intros u d x Hd Hx. apply OWN. apply (I3 u d); auto.
        - intros u. unfold advance. destruct (Nat.eqb_spec u t) as [->|]; auto. specialize (I4 t). rewrite Et in I4. inversion I4; auto.
        - intros u. unfold K', advance. destruct (Nat.eqb_spec u t) as [->|]; auto. }
      exists ts', m'. split; auto. intros u. destruct (Q u) as (done & mu & Q1 & Q2 & Q3 & Q4). unfold advance, mt', K' in *. cbn [turns].
      destruct (Nat.eqb_spec u t) as [->|Hu].
      * exists (c :: done), mu. rewrite Nat.eqb_refl. split; [rewrite Et, Q1; reflexivity|]. split; [rewrite Et; cbn [length]; lia|]. split; [cbn [in_order]; rewrite E2; exact Q3|]. exact Q4.
      * exists done, mu. destruct (Nat.eqb_spec t u); [congruence|]. auto.
Qed.

(** Every schedule, stopped anywhere: no step fails, and what a thread has computed so far is what it would have computed alone. *)
Theorem C76_every_schedule : forall s (ts : threads) (m : mem T), (forall t, Forall confined (ts t)) -> no_interference ts ->
  (forall t, reads_specified (owned ts t) (ts t)) ->
  exists ts' m', scheduled s ts m = Ok (ts', m') /\
    forall t, exists done mt, ts t = done ++ ts' t /\ length done = min (turns t s) (length (ts t)) /\ in_order done m = Ok mt /\
      forall x, specified (owned ts t) done x -> m' x = mt x.
Proof.
  intros s ts m HC HN HR. apply (run_inv s ts (fun t => owned ts t) m (fun _ => m)). split; [auto|]. split; [auto|]. split; [|split; auto].
  intros t c x Hc Hx u d Hu Hd. destruct (HN t u c d (not_eq_sym Hu) Hc Hd x) as [H _]. apply H; auto.
Qed.
(** A schedule that gives every thread enough turns finishes them all; any two such schedules leave the same results, those of the threads run one after the other. *)
Theorem C76_complete_schedules : forall s s' (ts : threads) (m : mem T), (forall t, Forall confined (ts t)) -> no_interference ts ->
  (forall t, reads_specified (owned ts t) (ts t)) -> (forall t, length (ts t) <= turns t s) -> (forall t, length (ts t) <= turns t s') ->
  exists ts1 m1 ts2 m2, scheduled s ts m = Ok (ts1, m1) /\ scheduled s' ts m = Ok (ts2, m2) /\ (forall t, ts1 t = [] /\ ts2 t = []) /\
    forall t x, specified (owned ts t) (ts t) x -> m1 x = m2 x.
Proof.
  intros s s' ts m HC HN HR L1 L2.
  destruct (C76_every_schedule s ts m HC HN HR) as (ts1 & m1 & E1 & Q1). destruct (C76_every_schedule s' ts m HC HN HR) as (ts2 & m2 & E2 & Q2).
  assert (FIN : forall (ts' : threads) t done k, ts t = done ++ ts' t -> length done = min k (length (ts t)) -> length (ts t) <= k -> ts' t = [] /\ done = ts t).
  { intros ts' t done k A B C. pose proof (f_equal (@length _) A) as X. rewrite app_length in X. assert (N : ts' t = []) by (apply length_zero_iff_nil; lia).
    split; auto. rewrite N, app_nil_r in A. auto. }
  exists ts1, m1, ts2, m2. split; auto. split; auto. split.
  - intros t. destruct (Q1 t) as (d1 & x1 & A1 & B1 & _). destruct (Q2 t) as (d2 & x2 & A2 & B2 & _). split; eapply FIN; eauto.
  - intros t x Hx. destruct (Q1 t) as (d1 & x1 & A1 & B1 & C1 & D1). destruct (Q2 t) as (d2 & x2 & A2 & B2 & C2 & D2).
    destruct (FIN _ _ _ _ A1 B1 (L1 t)) as (_ & ->). destruct (FIN _ _ _ _ A2 B2 (L2 t)) as (_ & ->).
    pose proof (eq_trans (eq_sym C1) C2) as Q. injection Q as <-. rewrite D1, D2 by auto. reflexivity.
Qed.
(** If every step specifies all it writes, everything a thread reads is specified, and so is everything no other thread writes. *)
Lemma fully_specified : forall (l : list action) (K : nat -> Prop), Forall (fun c => forall x, a_result c x \/ ~ a_writes c x) l ->
  (forall c x, In c l -> a_reads c x -> K x) -> (reads_specified K l) /\ forall x, K x -> specified K l x.
Proof.
  induction l as [|c l IH]; intros K HF HR; cbn; [auto|]. inversion HF as [|? ? H1 H2]; subst.
  destruct (IH (fun x => a_result c x \/ K x /\ ~ a_writes c x)) as [A B]; auto.
  - intros d x Hd Hx. destruct (H1 x); auto. right. split; auto. apply (HR d); auto. right; auto.
  - split; [split; auto; intros x Hx; apply (HR c); auto; left; auto|]. intros x Hx. apply B. destruct (H1 x); auto.
Qed.
End Schedules.

(* ------------------------------------------------------------------ gemm, tile by tile *)
Section Tiles.
Variables (SS : nat) (T : Type) (O : Ops T) (al : alloc) (alpha beta : T) (A B C D : marg).
Hypothesis HSS : 0 < SS.
Hypothesis HP : gemm_pre SS al A B C D.
Let M := g_rows A. Let N := g_cols B. Let K := g_cols A.
(** The tiles gemm computes D by, in the order it computes them. *)
Definition gemm_tiles : list call := tile SS TILE_STEP (cachePreferredTraversal (g_ptr SS D)) M N.
(** One of them: reads some rows of A, some columns of B and a block of C, writes the block of D. *)
Definition tile_action (c : call) : @action T :=
  Action (gemm_call SS T O al K alpha (g_ptr SS A) (g_ptr SS B) beta (g_ptr SS C) (g_ptr SS D) c)
    (fun x => cells (fun i k => k_i c <= i < k_i c + k_m c /\ k < K) (g_addr SS A) x \/ cells (fun k j => k < K /\ k_j c <= j < k_j c + k_nn c) (g_addr SS B) x \/
              cells (in_call c) (g_addr SS C) x) (cells (in_call c) (g_addr SS D)) (cells (in_call c) (g_addr SS D)).

Lemma tile_facts : (forall c, In c gemm_tiles -> forall i j, in_call c i j -> i < M /\ j < N) /\
  (forall i j, i < M -> j < N -> exists c, In c gemm_tiles /\ in_call c i j) /\
  ForallOrdPairs (fun c d => forall i j, in_call c i j -> ~ in_call d i j) gemm_tiles.
Proof.
  destruct (tile_ok_disj_cover SS HSS TILE_STEP ltac:(unfold TILE_STEP; lia) (cachePreferredTraversal (g_ptr SS D)) M N) as (TA & TB & TC). split; [|split].
  - intros c Hc i j Hij. apply TA in Hc. unfold call_ok, in_call in *. lia.
  - intros i j Hi Hj. apply TC; auto.
  - eapply FOP_impl; [|exact TB]. intros c d X i j Y Z. apply (X i j); auto.
Qed.
Lemma tile_val : forall c m, In c gemm_tiles -> exists m', a_op (tile_action c) m = Ok m' /\
  updated (in_call c) (g_addr SS D) (fun i j => ofma O beta (m (g_addr SS C i j))
         (omul O (fma_chain O K (fun k => m (g_addr SS A i k)) (fun k => m (g_addr SS B k j)) (o0 O)) alpha)) m m'.
Proof.
  intros c m Hc. destruct tile_facts as (TF & _).
  destruct HP as [hA hB hC hD sA sC sD pA pD zB [zC1 zC2] [zD1 zD2] aA aB aC aD xA xB xC].
  destruct (gemm_call_ok SS HSS T O al M N K alpha (g_ptr SS A) (g_ptr SS B) beta (g_ptr SS C) (g_ptr SS D) m) with (c := c) (m := m) as (m' & E & U1 & U2);
    auto using g_ptr_wf, g_ptr_lane, g_ptr_store; try (rewrite g_ptr_so; assumption).
  - intros i j Hi Hj. rewrite g_ptr_addr by auto. apply aA; auto.
  - intros i j Hi Hj. rewrite g_ptr_addr by auto. apply aB; auto. unfold K in *. lia.
  - intros i j Hi Hj. rewrite g_ptr_addr by auto. apply aC; auto.
  - intros i j Hi Hj. rewrite g_ptr_addr by auto. apply aD; auto.
  - intros i j i' j' Hi Hj Hi' Hj' X. rewrite !g_ptr_addr in X by auto. apply (g_distinct SS HSS D hD); unfold M, N in *; lia.
  - intros i j i' j' Hi Hj Hi' Hj'. rewrite !g_ptr_addr by auto. apply xA; auto.
  - intros i j i' j' Hi Hj Hi' Hj'. rewrite !g_ptr_addr by auto. apply xB; auto. unfold K in *. lia.
  - intros i j i' j' Hi Hi' X. rewrite !g_ptr_addr in X by auto. apply xC; auto.
  - exists m'. split; [exact E|]. split.
    + intros i j Hij. rewrite <- g_ptr_addr by auto. rewrite U1 by auto. unfold gemm_elem.
      rewrite g_ptr_addr by auto. f_equal. f_equal. apply fma_chain_ext; intros k Hk; rewrite g_ptr_addr; auto.
    + intros a Ha. apply U2. intros i j Hij. rewrite g_ptr_addr by auto. auto.
Qed.
Lemma tile_confined : forall c, In c gemm_tiles -> confined (tile_action c).
Proof.
  intros c Hc. unfold tile_action. eapply confined_updated; [intros m; apply (tile_val c m Hc)|]. cbn beta. intros m1 m2 H i j Hij.
  pose proof Hij as [Hi Hj]. f_equal; [apply H; right; right; exists i, j; auto|]. f_equal. apply fma_chain_ext; intros k Hk; apply H.
  - left. exists i, k. auto.
  - right. left. exists k, j. auto.
Qed.
Lemma tile_one_way : forall c d, In c gemm_tiles -> In d gemm_tiles -> (forall i j, in_call c i j -> ~ in_call d i j) -> forall x,
  a_writes (tile_action c) x -> ~ a_reads (tile_action d) x /\ ~ a_writes (tile_action d) x.
Proof.
  intros c d Hc Hd Dj x (i & j & Hij & ->). destruct tile_facts as (TF & _). destruct (TF c Hc i j Hij) as [HiM HjN]. cbn [tile_action a_reads a_writes].
  pose proof (TF d Hd) as TD. split.
  - intros [(i' & k & [Hi' Hk] & E)|[(k & j' & [Hk Hj'] & E)|(i' & j' & Hij' & E)]].
    + destruct (Nat.eq_dec (k_nn d) 0) as [Z|NZ].
      * (* a tile without columns: excluded by the tiling *)
        destruct (tile_ok_disj_cover SS HSS TILE_STEP ltac:(unfold TILE_STEP; lia) (cachePreferredTraversal (g_ptr SS D)) M N) as (TA & _ & _).
        specialize (TA d Hd). unfold call_ok in TA. lia.
      * destruct (TD i' (k_j d)) as [Hb _]; [unfold in_call; lia|]. apply (gp_sepA _ _ _ _ _ _ HP i j i' k) in E; auto.
    + destruct (tile_ok_disj_cover SS HSS TILE_STEP ltac:(unfold TILE_STEP; lia) (cachePreferredTraversal (g_ptr SS D)) M N) as (TA & _ & _).
      specialize (TA d Hd). unfold call_ok in TA.
      destruct (TD (k_i d) j') as [_ Hb]; [unfold in_call; lia|]. apply (gp_sepB _ _ _ _ _ _ HP i j k j') in E; auto. rewrite (gp_szB _ _ _ _ _ _ HP); auto.
    + apply (gp_sepC _ _ _ _ _ _ HP i j i' j') in E; [|split; auto|destruct (TD i' j' Hij'); split; auto]. destruct E as [<- <-]. apply (Dj i j); auto.
  - intros (i' & j' & Hij' & E). destruct (TD i' j' Hij') as [Hi' Hj']. apply (g_distinct SS HSS D (gp_D _ _ _ _ _ _ HP)) in E;
      rewrite ?(proj1 (gp_szD _ _ _ _ _ _ HP)), ?(proj2 (gp_szD _ _ _ _ _ _ HP)); auto. destruct E as [<- <-]. apply (Dj i j); auto.
Qed.
Lemma tile_independent : forall c d, In c gemm_tiles -> In d gemm_tiles -> (forall i j, in_call c i j -> ~ in_call d i j) -> independent (tile_action c) (tile_action d).
Proof.
  intros c d Hc Hd Dj x. split; apply tile_one_way; auto. intros i j H1 H2. apply (Dj i j); auto.
Qed.
End Tiles.

(** gemm is the sequence of its tiles; each reads and writes only what it says; no tile writes what another reads or writes. *)
Theorem C76_gemm_tiles : forall SS T (O : Ops T) al alpha A B beta C D, 0 < SS -> gemm_pre SS al A B C D ->
  let l := map (tile_action SS T O al alpha beta A B C D) (gemm_tiles SS A B D) in
  Forall confined l /\ ForallOrdPairs independent l /\ forall m, gemm SS T O al alpha A B beta C D m = in_order l m.
Proof.
  intros SS T O al alpha A B beta C D HSS HP l. split; [|split].
  - unfold l. rewrite Forall_map, Forall_forall. intros c Hc. apply tile_confined; auto.
  - apply ordpairs_map. destruct (tile_facts SS A B D HSS) as (_ & _ & F). eapply ordpairs_impl; [|exact F]. cbn beta. intros c d Hc Hd. apply tile_independent; auto.
  - intros m. unfold gemm, gemm_ptr. destruct HP as [hA hB hC hD sA sC sD pA pD zB [zC1 zC2] [zD1 zD2] aA aB aC aD xA xB xC].
    rewrite zB, zC1, zC2, zD1, zD2, !Nat.eqb_refl. cbn [negb andb]. rewrite g_ptr_so, sD. cbn [order_eqb negb]. unfold l, gemm_tiles. clear.
    revert m. induction (tile _ _ _ _ _) as [|c cs IH]; intros m; cbn [map in_order foldM]; auto. cbn [tile_action a_op].
    destruct (gemm_call _ _ _ _ _ _ _ _ _ _ _ _ _); cbn [bind]; auto.
Qed.

(** gemm run by several threads: however its tiles are dealt out to the threads, and however the threads are scheduled, the memory is the one a call of gemm leaves once all
    tiles are done. *)
Lemma ordpairs_app : forall A (R : A -> A -> Prop) l k, ForallOrdPairs R (l ++ k) -> ForallOrdPairs R l /\ ForallOrdPairs R k /\ forall x y, In x l -> In y k -> R x y.
Proof.
  induction l as [|a l IH]; intros k F; cbn in F; [repeat split; auto; [constructor|intros x y []]|]. inversion F as [|? ? F1 F2]; subst. destruct (IH k F2) as (A1 & A2 & A3).
  rewrite Forall_forall in F1. split; [|split]; auto.
  - constructor; auto. rewrite Forall_forall. intros x Hx. apply F1. apply in_or_app. auto.
  - intros x y [<-|Hx] Hy; auto. apply F1. apply in_or_app. auto.
Qed.
Lemma ordpairs_concat : forall A (R : A -> A -> Prop) (q : nat -> list A) p a, ForallOrdPairs R (concat (map q (seq a p))) ->
  (forall t, a <= t < a + p -> ForallOrdPairs R (q t)) /\ (forall t u x y, a <= t -> t < u -> u < a + p -> In x (q t) -> In y (q u) -> R x y).
Proof.
  intros A R q. induction p as [|p IH]; intros a F; [split; intros; lia|]. cbn [seq map concat] in F. apply ordpairs_app in F. destruct F as (F1 & F2 & F3).
  destruct (IH (S a) F2) as [I1 I2]. split.
  - intros t Ht. destruct (Nat.eq_dec t a) as [->|]; auto. apply I1. lia.
  - intros t u x y Ht Hu Hp Hx Hy. destruct (Nat.eq_dec t a) as [->|].
    + apply F3; auto. apply in_concat. exists (q u). split; auto. apply in_map. apply in_seq. lia.
    + apply (I2 t u); auto; lia.
Qed.
Lemma ordpairs_perm : forall A (R : A -> A -> Prop) l k, (forall x y, R x y -> R y x) -> Permutation.Permutation l k -> ForallOrdPairs R l -> ForallOrdPairs R k.
Proof.
  intros A R l k S P. induction P; intros H; auto.
  - inversion H; subst. constructor; auto. rewrite Forall_forall in *. intros y Hy. apply H2. apply (Permutation.Permutation_in y (Permutation.Permutation_sym P)); auto.
  - inversion H as [|? ? H1 H2]; subst. inversion H2 as [|? ? H3 H4]; subst. inversion H1 as [|? ? H5 H6]; subst.
    constructor; [constructor; [apply S; auto|auto]|]. constructor; auto.
Qed.
Lemma in_call_dec : forall c ad x, cells (in_call c) ad x \/ ~ cells (in_call c) ad x.
Proof.
  intros c ad x. destruct (Properties_DynReg.block_dec (k_m c) (k_nn c) (fun i j => ad (k_i c + i) (k_j c + j)) x) as [(i & j & Hi & Hj & E)|H].
  - left. exists (k_i c + i), (k_j c + j). split; auto. unfold in_call. lia.
  - right. intros (i & j & Hij & E). unfold in_call in Hij. apply (H (i - k_i c) (j - k_j c)); try lia.
    replace (k_i c + (i - k_i c)) with i by lia. replace (k_j c + (j - k_j c)) with j by lia. exact E.
Qed.
Theorem C76_parallel_gemm : forall SS T (O : Ops T) al alpha A B beta C D m p (share : nat -> list call) s, 0 < SS -> gemm_pre SS al A B C D ->
  Permutation.Permutation (gemm_tiles SS A B D) (concat (map share (seq 0 p))) -> (forall t, p <= t -> share t = []) ->
  (forall t, length (share t) <= turns t s) ->
  exists ts' m1 m2, scheduled s (fun t => map (tile_action SS T O al alpha beta A B C D) (share t)) m = Ok (ts', m1) /\
    gemm SS T O al alpha A B beta C D m = Ok m2 /\ (forall t, ts' t = []) /\ forall x, m1 x = m2 x.
Proof.
  intros SS T O al alpha A B beta C D m p share s HSS HP PERM OUT LEN.
  set (ta := tile_action SS T O al alpha beta A B C D). set (ts := fun t => map ta (share t)).
  destruct (tile_facts SS A B D HSS) as (TF & TC & TD).
  assert (DJ : ForallOrdPairs (fun c d => forall i j, in_call c i j -> ~ in_call d i j) (concat (map share (seq 0 p)))).
  { eapply ordpairs_perm; [|exact PERM|exact TD]. intros c d H i j H1 H2. apply (H i j); auto. }
  destruct (ordpairs_concat _ _ _ _ _ DJ) as [DJ1 DJ2].
  assert (LT : forall t c, In c (share t) -> t < p). { intros t c H. destruct (Nat.lt_ge_cases t p) as [|G]; auto. rewrite OUT in H by auto. destruct H. }
  assert (INN : forall t c, In c (share t) -> In c (gemm_tiles SS A B D)).
  { intros t c H. apply (Permutation.Permutation_in c (Permutation.Permutation_sym PERM)). apply in_concat. exists (share t). split; auto. apply in_map. apply in_seq. specialize (LT t c H). lia. }
  assert (CF : forall t, Forall confined (ts t)).
  { intros t. unfold ts. rewrite Forall_map, Forall_forall. intros c Hc. apply tile_confined; eauto. }
  assert (NI : no_interference ts).
  { intros t u c d Htu Hc Hd. unfold ts in *. apply in_map_iff in Hc, Hd. destruct Hc as (c' & <- & Hc), Hd as (d' & <- & Hd).
    apply tile_independent; eauto. destruct (Nat.lt_total t u) as [H|[H|H]]; [|congruence|].
    - apply (DJ2 t u); eauto; lia.
    - intros i j H1 H2. apply (DJ2 u t d' c' ltac:(lia) H ltac:(eauto) Hd Hc i j); auto. }
  assert (FS : forall t, Forall (fun c => forall x, a_result c x \/ ~ a_writes c x) (ts t)).
  { intros t. unfold ts. rewrite Forall_map, Forall_forall. intros c Hc x. apply in_call_dec. }
  assert (RD : forall t c x, In c (ts t) -> a_reads c x -> owned ts t x).
  { intros t c x Hc Hx u d Hu Hd Hw. destruct (NI t u c d (not_eq_sym Hu) Hc Hd x) as [_ H]. destruct (H Hw). auto. }
  assert (SP : forall t, reads_specified (owned ts t) (ts t) /\ forall x, owned ts t x -> specified (owned ts t) (ts t) x).
  { intros t. apply fully_specified; auto. intros c x. apply RD. }
  destruct (C76_every_schedule s ts m CF NI (fun t => proj1 (SP t))) as (ts' & m1 & E1 & Q).
  destruct (C17_gemm_ops SS T O al alpha A B beta C D m HSS HP) as (m2 & E2 & V2 & F2).
  assert (ALL : forall t, exists mt, ts' t = [] /\ in_order (ts t) m = Ok mt /\ forall x, owned ts t x -> m1 x = mt x).
  { intros t. destruct (Q t) as (done & mt & A1 & A2 & A3 & A4). specialize (LEN t). assert (L : length (ts t) = length (share t)) by (unfold ts; apply map_length).
    pose proof (f_equal (@length _) A1) as X. rewrite app_length in X. assert (N : ts' t = []) by (apply length_zero_iff_nil; lia).
    rewrite N, app_nil_r in A1. subst done. exists mt. split; auto. split; auto. intros x Hx. apply A4. apply (SP t). auto. }
  exists ts', m1, m2. split; [exact E1|]. split; auto. split; [intros t; destruct (ALL t) as (mt & N & _); exact N|].
  intros x. destruct (Properties_DynReg.block_dec (g_rows A) (g_cols B) (g_addr SS D) x) as [(i & j & Hi & Hj & ->)|Hn].
  - destruct (TC i j Hi Hj) as (c & Hc & Hij).
    assert (Hs : exists t, In c (share t)).
    { apply (Permutation.Permutation_in c PERM) in Hc. apply in_concat in Hc. destruct Hc as (l & Hl & Hcl). apply in_map_iff in Hl. destruct Hl as (t & <- & _). exists t. auto. }
    destruct Hs as (t & Ht). destruct (ALL t) as (mt & _ & Et & Vt).
    assert (W : a_writes (ta c) (g_addr SS D i j)) by (exists i, j; auto).
    assert (Tc : In (ta c) (ts t)) by (apply in_map; auto).
    rewrite Vt by (intros u d Hu Hd; destruct (NI t u (ta c) d (not_eq_sym Hu) Tc Hd (g_addr SS D i j)) as [H _]; apply H; auto).
    destruct (C61_batch (ts t) m (CF t)) as (mt' & Et' & Vb & _).
    { unfold ts. apply ordpairs_map. eapply ordpairs_impl; [|apply (DJ1 t)]. cbn beta. intros c1 c2 H1 H2. apply tile_independent; eauto. specialize (LT t c Ht). lia. }
    pose proof (eq_trans (eq_sym Et) Et') as X. injection X as <-. destruct (Vb (ta c) Tc) as (mc & Ec & Vc). rewrite Vc by (exists i, j; auto).
    destruct (tile_val SS T O al alpha beta A B C D HSS HP c m Hc) as (mc' & Ec' & Vc' & _). pose proof (eq_trans (eq_sym Ec) Ec') as X. injection X as <-.
    rewrite Vc', V2 by (auto; split; auto). reflexivity.
  - rewrite F2 by (intros i j [Hi Hj]; auto). destruct (ALL 0) as (mt & _ & Et & Vt).
    assert (NW : forall t d, In d (ts t) -> ~ a_writes d x).
    { intros t d Hd. unfold ts in Hd. apply in_map_iff in Hd. destruct Hd as (c & <- & Hc). intros (i & j & Hij & E). destruct (TF c (INN t c Hc) i j Hij). apply (Hn i j); auto. }
    rewrite Vt by (intros u d Hu Hd; apply (NW u d Hd)).
    destruct (C61_batch (ts 0) m (CF 0)) as (mt' & Et' & _ & Fb).
    { unfold ts. destruct p as [|p]; [rewrite OUT by lia; constructor|]. apply ordpairs_map. eapply ordpairs_impl; [|apply (DJ1 0)]; [|lia]. cbn beta. intros c1 c2 H1 H2. apply tile_independent; eauto. }
    pose proof (eq_trans (eq_sym Et) Et') as X. injection X as <-. apply Fb. intros d Hd. apply (NW 0 d Hd).
Qed.

(* ------------------------------------------------------------------ concrete cases *)
(** The tiles of a 6-by-3 product, dealt out to two threads, which take turns. *)
Definition th_share (t : nat) : list call := match t with 0 => [nth 1 (gemm_tiles 4 wA wB wD) (Call 0 0 0 0 0 0 false)] | 1 => [nth 0 (gemm_tiles 4 wA wB wD) (Call 0 0 0 0 0 0 false)] | _ => [] end.
Example C76_example_gemm : gemm_pre 4 w_al wA wB wD wD /\ length (gemm_tiles 4 wA wB wD) = 2 /\
  Permutation.Permutation (gemm_tiles 4 wA wB wD) (concat (map th_share (seq 0 2))) /\ (forall t, 2 <= t -> th_share t = []) /\
  (forall t, length (th_share t) <= turns t [0; 1]).
Proof.
  split; [exact w_pre0|]. split; [vm_compute; reflexivity|]. split; [vm_compute; apply Permutation.perm_swap|]. split.
  - intros [|[|t]] H; try lia. reflexivity.
  - intros [|[|t]]; cbn; lia.
Qed.

(** Thread 0 copies A to E and then E to F; thread 1 copies A to G. *)
Definition th_mat (b : nat) : marg := MArg (whole (Cont Dense false columnMajor 5 2 b)) false.
Definition th_al (x : nat) : bool := x <? 64.
Definition th_copy (to from : nat) : @action Z :=
  Action (m_assign 4 Z th_al (th_mat to) (th_mat from)) (cells (block 5 2) (g_addr 4 (th_mat from))) (cells (block 5 2) (g_addr 4 (th_mat to))) (cells (block 5 2) (g_addr 4 (th_mat to))).
Definition th_ts : @threads Z := fun t => match t with 0 => [th_copy 16 0; th_copy 32 16] | 1 => [th_copy 48 0] | _ => [] end.
Lemma th_confined : forall to from, In to [16; 32; 48] -> In from [0; 16] -> to <> from -> confined (th_copy to from).
Proof.
  intros to from [<-|[<-|[<-|[]]]] [<-|[<-|[]]] H; try congruence; apply (C61_assign 4 Z th_al (th_mat _) (th_mat _));
   first [lia|reflexivity|assumption|apply allocated_check; vm_compute; reflexivity|apply separate_check; vm_compute; reflexivity|unfold arg_ok; cbn; repeat split; auto; lia].
Qed.
Lemma th_apart : forall a b x, a <> b -> a mod 16 = 0 -> b mod 16 = 0 -> cells (block 5 2) (g_addr 4 (th_mat a)) x -> ~ cells (block 5 2) (g_addr 4 (th_mat b)) x.
Proof.
  assert (E : forall a i j, g_addr 4 (th_mat a) i j = a + (i + 8 * j)) by (intros; unfold g_addr, v_addr, c_addr, c_index, c_spacing, nextMultiple, th_mat; cbn; lia).
  intros a b x H Ha Hb (i & j & [Hi Hj] & ->) (i' & j' & [Hi' Hj'] & Q). rewrite !E in Q.
  apply Nat.mod_divides in Ha, Hb; try lia. destruct Ha as [u ->], Hb as [v ->]. lia.
Qed.
Example C76_example_copies : (forall t, Forall confined (th_ts t)) /\ no_interference th_ts /\ (forall t, reads_specified (owned th_ts t) (th_ts t)) /\
  (forall t, length (th_ts t) <= turns t [0; 1; 0]) /\
  match scheduled [0; 1; 0] th_ts Z.of_nat with Ok (_, m') => map m' [32; 44; 48; 60] = [0; 12; 0; 12]%Z | _ => False end.
Proof.
  assert (NI : no_interference th_ts).
  { assert (H1 : independent (th_copy 16 0) (th_copy 48 0)) by (intros x; split; intros W; split; revert W; apply th_apart; first [discriminate|reflexivity]).
    assert (H2 : independent (th_copy 32 16) (th_copy 48 0)) by (intros x; split; intros W; split; revert W; apply th_apart; first [discriminate|reflexivity]).
    intros [|[|t]] [|[|u]] c d Htu Hc Hd; try congruence; cbn in Hc, Hd; try tauto.
    - destruct Hd as [<-|[]]. destruct Hc as [<-|[<-|[]]]; auto.
    - destruct Hc as [<-|[]]. destruct Hd as [<-|[<-|[]]]; apply indep_sym; auto. }
  split; [|split; [exact NI|split; [|split]]].
  - intros [|[|t]]; cbn; repeat constructor; apply th_confined; cbn; auto; discriminate.
  - intros t. apply fully_specified.
    + assert (H : forall b x, cells (block 5 2) (g_addr 4 (th_mat b)) x \/ ~ cells (block 5 2) (g_addr 4 (th_mat b)) x).
      { intros b x. destruct (Properties_DynReg.block_dec 5 2 (g_addr 4 (th_mat b)) x) as [(i & j & Hi & Hj & E)|H]; [left; exists i, j; unfold block; auto|].
        right. intros (i & j & [Hi Hj] & E). apply (H i j); auto. }
      destruct t as [|[|t]]; cbn [th_ts]; repeat apply Forall_cons; try apply Forall_nil; intros x; apply H.
    + intros c x Hc Hx u d Hu Hd Hw. destruct (NI t u c d (not_eq_sym Hu) Hc Hd x) as [_ H]. destruct (H Hw). auto.
  - intros [|[|t]]; cbn; lia.
  - vm_compute. reflexivity.
Qed.
(** If thread 1 writes E instead, the outcome depends on the schedule. *)
Theorem C76_interference_refuted :
  let ts : threads := fun t => match t with 0 => [th_copy 16 0; th_copy 32 16] | 1 => [th_copy 16 48] | _ => [] end in
  match scheduled [0; 0; 1] ts Z.of_nat, scheduled [0; 1; 0] ts Z.of_nat with
  | Ok (_, m1), Ok (_, m2) => m1 (g_addr 4 (th_mat 32) 1 1) = 9%Z /\ m2 (g_addr 4 (th_mat 32) 1 1) = 57%Z
  | _, _ => False end.
Proof. vm_compute. auto. Qed.
