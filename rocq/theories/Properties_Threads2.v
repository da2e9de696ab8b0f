(** Properties_Threads2.v -- C76: the tiles of ger, syrk and trmm run by several threads. *)
From Coq Require Import Arith Lia List Bool PeanoNat ZArith.
From Verif Require Import Base Base_Proofs Spec Footprint_Spec Threads_Spec Algebra_Proofs Instances Layout_Model Layout_Proofs Simd_Model Simd_Proofs Vec_Proofs Tile_Model Tile_Proofs Arg_Proofs
  Reg_Model Gemm_Model Gemm_Proofs Properties_Gemm Ger_Model Ger_Proofs Properties_Ger Syrk_Model Syrk_Proofs Properties_Syrk Trmm_Model Trmm_Proofs Properties_Trmm
  Properties_Footprint Properties_Compose Properties_Threads.
Import ListNotations.

(** What it takes to run the pieces (ta c), c in l, of an operation by threads: they are confined, independent of each other, specify what they write, and the operation is
    their sequence. *)
Definition divides_into {T X} (op : mem T -> res (mem T)) (ta : X -> @action T) (l : list X) : Prop :=
  Forall confined (map ta l) /\ ForallOrdPairs independent (map ta l) /\ (forall c, In c l -> forall x, a_result (ta c) x \/ ~ a_writes (ta c) x) /\
  forall m, op m = in_order (map ta l) m.

Lemma ordpairs_unmap : forall A B (f : A -> B) (R : B -> B -> Prop) l, ForallOrdPairs R (map f l) -> ForallOrdPairs (fun x y => R (f x) (f y)) l.
Proof.
  induction l as [|a l IH]; cbn; intros H; [constructor|]. inversion H as [|? ? H1 H2]; subst. constructor; auto. rewrite Forall_map in H1. exact H1.
Qed.
Lemma written_dec : forall T X (ta : X -> @action T) l x, (forall c, In c l -> forall x, a_result (ta c) x \/ ~ a_writes (ta c) x) ->
  (exists c, In c l /\ a_result (ta c) x) \/ forall c, In c l -> ~ a_writes (ta c) x.
Proof.
  induction l as [|a l IH]; intros x H; [right; intros c []|]. destruct (H a (or_introl eq_refl) x) as [R|R]; [left; exists a; cbn; auto|].
  destruct (IH x) as [(c & Hc & Hr)|N]; [intros c Hc; apply H; right; auto|left; exists c; cbn; auto|]. right. intros c [<-|Hc]; auto.
Qed.

(** However the pieces are dealt out to p threads and however these are scheduled, once all pieces are done the memory is the one the operation leaves. *)
Theorem C76_parallel : forall T X (op : mem T -> res (mem T)) (ta : X -> @action T) (l : list X) m p (share : nat -> list X) s,
  divides_into op ta l -> Permutation.Permutation l (concat (map share (seq 0 p))) -> (forall t, p <= t -> share t = []) ->
  (forall t, length (share t) <= turns t s) ->
  exists ts' m1 m2, scheduled s (fun t => map ta (share t)) m = Ok (ts', m1) /\ op m = Ok m2 /\ (forall t, ts' t = []) /\ forall x, m1 x = m2 x.
Proof.
  intros T X op ta l m p share s (CF0 & IND0 & SPC & OP) PERM OUT LEN. set (ts := fun t => map ta (share t)).
  assert (DJ : ForallOrdPairs (fun c d => independent (ta c) (ta d)) (concat (map share (seq 0 p)))).
  { eapply ordpairs_perm; [|exact PERM|apply ordpairs_unmap; exact IND0]. intros c d H. apply indep_sym. exact H. }
  destruct (ordpairs_concat _ _ _ _ _ DJ) as [DJ1 DJ2].
  assert (LT : forall t c, In c (share t) -> t < p). { intros t c H. destruct (Nat.lt_ge_cases t p) as [|G]; auto. rewrite OUT in H by auto. destruct H. }
  assert (INN : forall t c, In c (share t) -> In c l).
  { intros t c H. apply (Permutation.Permutation_in c (Permutation.Permutation_sym PERM)). apply in_concat. exists (share t). split; auto. apply in_map. apply in_seq. specialize (LT t c H). lia. }
  rewrite Forall_map, Forall_forall in CF0.
  assert (CF : forall t, Forall confined (ts t)).
  { intros t. unfold ts. rewrite Forall_map, Forall_forall. intros c Hc. eauto. }
  assert (NI : no_interference ts).
  { intros t u c d Htu Hc Hd. unfold ts in *. apply in_map_iff in Hc, Hd. destruct Hc as (c' & <- & Hc), Hd as (d' & <- & Hd).
    destruct (Nat.lt_total t u) as [H|[H|H]]; [|congruence|].
    - apply (DJ2 t u); auto; [lia|]. specialize (LT u d' Hd). lia.
    - apply indep_sym. apply (DJ2 u t); auto; [lia|]. specialize (LT t c' Hc). lia. }
  assert (FS : forall t, Forall (fun c => forall x, a_result c x \/ ~ a_writes c x) (ts t)).
  { intros t. unfold ts. rewrite Forall_map, Forall_forall. intros c Hc x. eauto. }
  assert (RD : forall t c x, In c (ts t) -> a_reads c x -> owned ts t x).
  { intros t c x Hc Hx u d Hu Hd Hw. destruct (NI t u c d (not_eq_sym Hu) Hc Hd x) as [_ H]. destruct (H Hw). auto. }
  assert (SP : forall t, reads_specified (owned ts t) (ts t) /\ forall x, owned ts t x -> specified (owned ts t) (ts t) x).
  { intros t. apply fully_specified; auto. intros c x. apply RD. }
  assert (IO : forall t, ForallOrdPairs independent (ts t)).
  { intros t. unfold ts. destruct (Nat.lt_ge_cases t p) as [H|H]; [|rewrite OUT by auto; constructor]. apply ordpairs_map. apply DJ1. lia. }
  destruct (C76_every_schedule s ts m CF NI (fun t => proj1 (SP t))) as (ts' & m1 & E1 & Q).
  destruct (C61_batch (map ta l) m) as (m2 & E2 & V2 & F2); [rewrite Forall_map, Forall_forall; auto|exact IND0|].
  assert (ALL : forall t, exists mt, ts' t = [] /\ in_order (ts t) m = Ok mt /\ forall x, owned ts t x -> m1 x = mt x).
  { intros t. destruct (Q t) as (done & mt & A1 & A2 & A3 & A4). specialize (LEN t). assert (L : length (ts t) = length (share t)) by (unfold ts; apply map_length).
    pose proof (f_equal (@length _) A1) as XL. rewrite app_length in XL. assert (N : ts' t = []) by (apply length_zero_iff_nil; lia).
    rewrite N, app_nil_r in A1. subst done. exists mt. split; auto. split; auto. intros x Hx. apply A4. apply (SP t). auto. }
  exists ts', m1, m2. split; [exact E1|]. split; [rewrite OP; exact E2|]. split; [intros t; destruct (ALL t) as (mt & N & _); exact N|].
  intros x. destruct (written_dec T X ta l x SPC) as [(c & Hc & Hr)|Hn].
  - assert (Hs : exists t, In c (share t)).
    { pose proof (Permutation.Permutation_in c PERM Hc) as H. apply in_concat in H. destruct H as (k & Hk & Hck). apply in_map_iff in Hk. destruct Hk as (t & <- & _). exists t. auto. }
    destruct Hs as (t & Ht). destruct (ALL t) as (mt & _ & Et & Vt).
    assert (W : a_writes (ta c) x) by (apply (CF0 c Hc); auto).
    assert (Tc : In (ta c) (ts t)) by (apply in_map; auto).
    rewrite Vt by (intros u d Hu Hd; destruct (NI t u (ta c) d (not_eq_sym Hu) Tc Hd x) as [H _]; apply H; auto).
    destruct (C61_batch (ts t) m (CF t) (IO t)) as (mt' & Et' & Vb & _).
    pose proof (eq_trans (eq_sym Et) Et') as Y. injection Y as <-. destruct (Vb (ta c) Tc) as (mc & Ec & Vc).
    destruct (V2 (ta c) (in_map ta l c Hc)) as (mc' & Ec' & Vc'). pose proof (eq_trans (eq_sym Ec) Ec') as Y. injection Y as <-. rewrite Vc, Vc'; auto.
  - rewrite F2 by (intros c Hc; apply in_map_iff in Hc; destruct Hc as (c' & <- & Hc); auto). destruct (ALL 0) as (mt & _ & Et & Vt).
    assert (NW : forall t d, In d (ts t) -> ~ a_writes d x).
    { intros t d Hd. unfold ts in Hd. apply in_map_iff in Hd. destruct Hd as (c & <- & Hc). eauto. }
    rewrite Vt by (intros u d Hu Hd; apply (NW u d Hd)).
    destruct (C61_batch (ts 0) m (CF 0) (IO 0)) as (mt' & Et' & _ & Fb).
    pose proof (eq_trans (eq_sym Et) Et') as Y. injection Y as <-. apply Fb. intros d Hd. apply (NW 0 d Hd).
Qed.
Lemma foldM_in_order : forall T (f : call -> mem T -> res (mem T)) (ta : call -> @action T) l m, (forall c, a_op (ta c) = f c) -> foldM f l m = in_order (map ta l) m.
Proof.
  induction l as [|c l IH]; intros m H; cbn [map in_order foldM]; auto. rewrite H. destruct (f c m); cbn [bind]; auto.
Qed.
Lemma cells_dec2 : forall (Q : nat -> nat -> bool) c ad x, cells (fun i j => in_call c i j /\ Q i j = true) ad x \/ ~ cells (fun i j => in_call c i j /\ Q i j = true) ad x.
Proof.
  intros Q c ad x.
  assert (R : forall n, (exists i j, i < n /\ k_j c <= j < k_j c + k_nn c /\ k_i c <= i /\ Q i j = true /\ x = ad i j) \/
    forall i j, i < n -> k_j c <= j < k_j c + k_nn c -> k_i c <= i -> Q i j = true -> x <> ad i j).
  { induction n as [|n [IH|IH]]; [right; intros; lia|destruct IH as (i & j & H); left; exists i, j; intuition lia|].
    assert (S : forall q, (exists j, j < q /\ k_j c <= j /\ Q n j = true /\ x = ad n j) \/ forall j, j < q -> k_j c <= j -> Q n j = true -> x <> ad n j).
    { induction q as [|q [IQ|IQ]]; [right; intros; lia|destruct IQ as (j & H); left; exists j; intuition lia|].
      destruct (Q n q) eqn:Eq; [destruct (Nat.eq_dec x (ad n q)) as [E|E]; [destruct (Nat.le_gt_cases (k_j c) q); [left; exists q; auto|]|]|];
       right; intros j Hj; (destruct (Nat.eq_dec j q) as [->|]; [try congruence; try lia; auto|apply IQ; lia]). }
    destruct (Nat.le_gt_cases (k_i c) n) as [G|G].
    - destruct (S (k_j c + k_nn c)) as [(j & H)|H]; [left; exists n, j; intuition lia|]. right. intros i j Hi Hj Hk Hq. destruct (Nat.eq_dec i n) as [->|]; [apply H; auto; lia|apply IH; auto; lia].
    - right. intros i j Hi Hj Hk Hq. apply IH; auto. lia. }
  destruct (R (k_i c + k_m c)) as [(i & j & H1 & H2 & H3 & H4 & H5)|H]; [left; exists i, j; unfold in_call; intuition lia|].
  right. intros (i & j & [Hc Hq] & E). unfold in_call in Hc. apply (H i j); auto; lia.
Qed.

(* ------------------------------------------------------------------ ger *)
Section GerTiles.
Variables (SS cc : nat) (T : Type) (O : Ops T) (al : alloc) (alpha : T) (x y : varg) (A B : marg).
Hypothesis HSS : 0 < SS.
Hypothesis Hcc : 0 < cc.
Hypothesis HP : ger_pre SS cc al x y A B.
Notation TS := (cc * SS).
(** The tiles of ger, each reading a piece of x, one of y and the block of A and writing the block of B. *)
Definition ger_tiles : list call := tile TS TS columnMajor (x_size x) (x_size y).
Definition ger_tile (c : call) : @action T :=
  Action (ger_call SS cc T O al alpha (x_ptr x) (x_ptr y) (g_ptr SS A) (g_ptr SS B) c)
    (fun a => (exists i, k_i c <= i < k_i c + k_m c /\ a = vaddr SS (x_ptr x) i) \/ (exists j, k_j c <= j < k_j c + k_nn c /\ a = vaddr SS (x_ptr y) j) \/ cells (in_call c) (g_addr SS A) a)
    (cells (in_call c) (g_addr SS B)) (cells (in_call c) (g_addr SS B)).
Lemma TSp : 0 < TS.
Proof. nia. Qed.
Lemma ger_tile_confined : forall c, In c ger_tiles -> confined (ger_tile c).
Proof.
  intros c Hc. unfold ger_tile. destruct HP as [hx hy hA hB sA sB pA pB [zA1 zA2] [zB1 zB2] ax ay aA aB xx xy xA].
  destruct (nextMultiple_spec (x_size x) SS HSS) as (NM & _ & _).
  eapply (confined_updated T _ _ _ _ (fun m i j => ofma O (omul O alpha (m (vaddr SS (x_ptr x) i))) (m (vaddr SS (x_ptr y) j)) (omul O (o1 O) (m (g_addr SS A i j))))).
  - intros m. destruct (ger_call_ok SS HSS cc Hcc T O al (x_size x) (x_size y) alpha (x_ptr x) (x_ptr y) (g_ptr SS A) (g_ptr SS B) m) with (c := c) (m := m)
      as (m' & E & U1 & U2); auto using g_ptr_wf, g_ptr_lane, g_ptr_store; try (rewrite g_ptr_so; assumption).
    + intros i j Hi Hj. rewrite g_ptr_addr by auto. apply aA; auto. destruct (_ && _); lia.
    + intros i j Hi Hj. rewrite g_ptr_addr by auto. apply aB; auto.
    + intros i j i' j' Hi Hj Hi' Hj' X. rewrite !g_ptr_addr in X by auto. apply (g_distinct SS HSS B hB); lia.
    + exists m'. split; [exact E|]. split.
      * intros i j Hij. rewrite <- g_ptr_addr by auto. rewrite U1 by auto. unfold ger_elem. rewrite g_ptr_addr; auto.
      * intros a Ha. apply U2. intros i j Hij. rewrite g_ptr_addr by auto. auto.
  - cbn beta. intros m1 m2 H i j Hij. pose proof Hij as [Hi Hj]. f_equal; [f_equal; apply H; left; eauto|apply H; right; left; eauto|].
    f_equal. apply H. right. right. exists i, j. auto.
Qed.
Theorem C76_ger_tiles : divides_into (ger_cm SS cc T O al alpha x y A B) ger_tile ger_tiles.
Proof.
  pose proof TSp as HT. destruct (tile_ok_disj_cover TS HT TS HT columnMajor (x_size x) (x_size y)) as (TA & TB & TC). split; [|split; [|split]].
  - rewrite Forall_map, Forall_forall. apply ger_tile_confined.
  - apply ordpairs_map. eapply ordpairs_impl; [|exact TB]. cbn beta. intros c d Hc Hd Dj.
    destruct HP as [hx hy hA hB sA sB pA pB [zA1 zA2] [zB1 zB2] ax ay aA aB xx xy xA].
    assert (OW : forall c d, In c ger_tiles -> In d ger_tiles -> (forall i j, in_call c i j -> ~ in_call d i j) ->
      forall a, a_writes (ger_tile c) a -> ~ a_reads (ger_tile d) a /\ ~ a_writes (ger_tile d) a).
    { clear c d Hc Hd Dj. intros c d Hc Hd Dj a (i & j & Hij & ->). pose proof (TA c Hc) as Tc. pose proof (TA d Hd) as Td. unfold call_ok in Tc, Td.
      assert (Bc : i < x_size x /\ j < x_size y) by (unfold in_call in Hij; lia). destruct Bc as [Bi Bj]. cbn [ger_tile a_reads a_writes]. split.
      - intros [(k & Hk & E)|[(k & Hk & E)|(i' & j' & Hij' & E)]].
        + apply (xx i j k) in E; auto; lia.
        + apply (xy i j k) in E; auto; lia.
        + apply xA in E; [|split; auto|unfold in_call in Hij'; split; lia]. destruct E as [<- <-]. apply (Dj i j); auto.
      - intros (i' & j' & Hij' & E). apply (g_distinct SS HSS B hB) in E; try (unfold in_call in *; lia). destruct E as [<- <-]. apply (Dj i j); auto. }
    intros a. split; apply OW; auto. intros i j H1 H2. apply (Dj i j); auto.
  - intros c Hc a. apply in_call_dec.
  - intros m. destruct HP as [hx hy hA hB sA sB pA pB [zA1 zA2] [zB1 zB2] ax ay aA aB xx xy xA].
    unfold ger_cm, ger_ptr. rewrite zA1, zA2, zB1, zB2, !Nat.eqb_refl, !g_ptr_so, sA, sB. cbn [negb order_eqb andb]. apply foldM_in_order. reflexivity.
Qed.
End GerTiles.

(* ------------------------------------------------------------------ syrk *)
Section SyrkTiles.
Variables (SS cc : nat) (T : Type) (O : Ops T) (al : alloc) (alpha beta : T) (A C D : view).
Hypothesis HSS : 0 < SS.
Hypothesis Hcc : 0 < cc.
Hypothesis HP : syrk_pre SS cc al A C D.
(** The tiles of syrk, each reading the rows of A that meet in it and writing its part of the lower triangle. *)
Definition syrk_tiles : list call := syrk_calls SS cc (v_m A).
Definition syrk_tile (c : call) : @action T :=
  Action (syrk_call SS cc T O al (v_n A) alpha A beta C D c)
    (fun x => cells (fun i k => (k_i c <= i < k_i c + k_m c \/ k_j c <= i < k_j c + k_nn c) /\ k < v_n A) (v_addr SS A) x \/ cells (fun i j => in_call c i j /\ j <= i) (v_addr SS C) x)
    (cells (fun i j => in_call c i j /\ j <= i) (v_addr SS D)) (cells (fun i j => in_call c i j /\ j <= i) (v_addr SS D)).
Lemma syrk_D_distinct : forall i j i' j', lower (v_m A) (v_m A) i j -> lower (v_m A) (v_m A) i' j' -> v_addr SS D i j = v_addr SS D i' j' -> i = i' /\ j = j'.
Proof.
  destruct HP as [hA hC hD [i1 i2] [zC1 zC2] [zD1 zD2] aA aC aD xA xC].
  intros i j i' j' (H1 & H2 & H3) (H4 & H5 & H6) X. unfold v_addr, c_addr in X. apply Nat.add_cancel_l in X. apply (c_index_inj SS HSS) in X; lia.
Qed.
Lemma syrk_tile_confined : forall c, In c syrk_tiles -> confined (syrk_tile c).
Proof.
  intros c Hc. unfold syrk_tile. pose proof syrk_D_distinct as DD. destruct HP as [hA hC hD [i1 i2] [zC1 zC2] [zD1 zD2] aA aC aD xA xC].
  eapply confined_updated.
  - intros m. apply (syrk_call_ok SS HSS cc Hcc T O al alpha A beta C D m); auto.
    intros i j Hj Hi. apply aC; auto. pose proof (syrk_last_bound SS HSS cc Hcc (v_m A) (v_pf C) j). unfold Ger_Model.TS in *. lia.
  - cbn beta. intros m1 m2 H i j Hij. unfold syrk_elem. replace (m2 (v_addr SS C i j)) with (m1 (v_addr SS C i j)) by (apply H; right; exists i, j; auto).
    destruct Hij as [[Hi Hj] Hl]. apply fma_chain_ext; intros k Hk; [f_equal|]; apply H; left; [exists i, k|exists j, k]; auto.
Qed.
Theorem C76_syrk_tiles : divides_into (syrkLower SS cc T O al alpha A beta C D) syrk_tile syrk_tiles.
Proof.
  destruct (syrk_calls_ok SS HSS cc Hcc (v_m A)) as (TA & TB & TC). split; [|split; [|split]].
  - rewrite Forall_map, Forall_forall. apply syrk_tile_confined.
  - apply ordpairs_map. eapply ordpairs_impl; [|exact TB]. cbn beta. intros c d Hc Hd Dj. pose proof syrk_D_distinct as DD.
    destruct HP as [hA hC hD [i1 i2] [zC1 zC2] [zD1 zD2] aA aC aD xA xC].
    assert (OW : forall c d, In c syrk_tiles -> In d syrk_tiles -> (forall i j, in_call c i j -> ~ in_call d i j) ->
      forall a, a_writes (syrk_tile c) a -> ~ a_reads (syrk_tile d) a /\ ~ a_writes (syrk_tile d) a).
    { clear c d Hc Hd Dj. intros c d Hc Hd Dj a (i & j & [Hij Hl] & ->). pose proof (TA c Hc) as Tc. pose proof (TA d Hd) as Td. unfold syrk_ok, call_ok in Tc, Td.
      assert (Bc : lower (v_m A) (v_m A) i j) by (unfold in_call in Hij; unfold lower; lia).
      assert (Bd : forall i' j', in_call d i' j' /\ j' <= i' -> lower (v_m A) (v_m A) i' j') by (intros i' j' [H H']; unfold in_call in H; unfold lower; lia).
      cbn [syrk_tile a_reads a_writes]. split.
      - intros [(i' & k & [Hk Hk'] & E)|(i' & j' & Hij' & E)].
        + apply (xA i j i' k) in E; auto; lia.
        + apply xC in E; auto. destruct E as [<- <-]. apply (Dj i j); tauto.
      - intros (i' & j' & Hij' & E). apply DD in E; auto. destruct E as [<- <-]. apply (Dj i j); tauto. }
    intros a. split; apply OW; auto. intros i j H1 H2. apply (Dj i j); auto.
  - intros c Hc a. cbn [syrk_tile a_result a_writes]. destruct (cells_dec2 (fun i j => j <=? i) c (v_addr SS D) a) as [(i & j & [H1 H2] & E)|H].
    + left. exists i, j. apply Nat.leb_le in H2. auto.
    + right. intros (i & j & [H1 H2] & E). apply H. exists i, j. apply Nat.leb_le in H2. auto.
  - intros m. destruct HP as [hA hC hD [i1 i2] [zC1 zC2] [zD1 zD2] aA aC aD xA xC].
    unfold syrkLower. rewrite zC1, zC2, zD1, zD2, !Nat.eqb_refl. cbn [negb andb]. apply foldM_in_order. reflexivity.
Qed.
End SyrkTiles.

(* ------------------------------------------------------------------ trmm, the result apart from B *)
Section TrmmRTiles.
Variables (SS cc : nat) (T : Type) (O : Ops T) (al : alloc) (alpha : T) (B A C : marg).
Hypothesis HSS : 0 < SS.
Hypothesis Hcc : 0 < cc.
Hypothesis HP : trmmR_pre SS cc al B A C.
Hypothesis SEP : separate (g_rows B) (g_cols B) (g_addr SS C) (g_rows B) (g_cols B) (g_addr SS B).
Notation TS := (cc * SS).
(** The tiles of the right-hand trmm, each reading its rows of B and its columns of A, from the first column of the tile on. *)
Definition trmmR_tiles : list call := tile TS TS columnMajor (g_rows B) (g_cols B).
Definition trmmR_tile (c : call) : @action T :=
  Action (trmmR_call SS cc T O al (g_cols B) alpha (g_ptr SS B) (g_ptr SS A) false (g_ptr SS C) c)
    (fun x => cells (fun i k => k_i c <= i < k_i c + k_m c /\ k_j c <= k < g_cols B) (g_addr SS B) x \/
              cells (fun k j => k_j c <= j < k_j c + k_nn c /\ j <= k < g_cols B) (g_addr SS A) x)
    (cells (in_call c) (g_addr SS C)) (cells (in_call c) (g_addr SS C)).
Lemma trmmR_tile_confined : forall c, In c trmmR_tiles -> confined (trmmR_tile c).
Proof.
  intros c Hc. unfold trmmR_tile. destruct HP as [hA hB hC sB sC wA pB pC [zA1 zA2] [zC1 zC2] aB aA aC xB xA].
  eapply (confined_updated T _ _ _ _ (fun m i j => fma_chain O (g_cols B - j) (fun k => omul O alpha (m (g_addr SS B i (j + k)))) (fun k => m (g_addr SS A (j + k) j)) (o0 O))).
  - intros m. destruct (trmmR_call_ok SS HSS cc Hcc T O al (g_rows B) (g_cols B) alpha (g_ptr SS B) (g_ptr SS A) false (g_ptr SS C) m) with (c := c) (m := m)
      as (m' & E & U1 & U2); auto using g_ptr_wf, g_ptr_lane, g_ptr_store; try (rewrite g_ptr_so; assumption); try discriminate.
    + unfold vmovable. rewrite g_ptr_kind, g_ptr_so. exact wA.
    + intros i j Hi Hj. rewrite g_ptr_addr by auto. apply aB; auto.
    + intros i k Hi Hk. rewrite g_ptr_addr by auto. apply aA; auto.
    + intros i j Hi Hj. rewrite g_ptr_addr by auto. apply aC; auto.
    + intros i j i' j' Hi Hj Hi' Hj' X. rewrite !g_ptr_addr in X by auto. apply (g_distinct SS HSS C hC); lia.
    + exists m'. split; [exact E|]. split.
      * intros i j Hij. rewrite <- g_ptr_addr by auto. rewrite U1 by auto. unfold trmmR_val. apply fma_chain_ext; intros k Hk; rewrite g_ptr_addr; auto.
      * intros a Ha. apply U2. intros i j Hij. rewrite g_ptr_addr by auto. auto.
  - cbn beta. intros m1 m2 H i j [Hi Hj]. apply fma_chain_ext; intros k Hk; [f_equal|]; apply H; [left; exists i, (j + k)|right; exists (j + k), j]; (split; [lia|reflexivity]).
Qed.
Theorem C76_trmm_right_tiles : divides_into (trmmR SS cc T O al alpha B A Lower false C) trmmR_tile trmmR_tiles.
Proof.
  assert (HT : 0 < TS) by nia. destruct (tile_ok_disj_cover TS HT TS HT columnMajor (g_rows B) (g_cols B)) as (TA & TB & TC). split; [|split; [|split]].
  - rewrite Forall_map, Forall_forall. apply trmmR_tile_confined.
  - apply ordpairs_map. eapply ordpairs_impl; [|exact TB]. cbn beta. intros c d Hc Hd Dj.
    destruct HP as [hA hB hC sB sC wA pB pC [zA1 zA2] [zC1 zC2] aB aA aC xB xA].
    assert (OW : forall c d, In c trmmR_tiles -> In d trmmR_tiles -> (forall i j, in_call c i j -> ~ in_call d i j) ->
      forall a, a_writes (trmmR_tile c) a -> ~ a_reads (trmmR_tile d) a /\ ~ a_writes (trmmR_tile d) a).
    { clear c d Hc Hd Dj. intros c d Hc Hd Dj a (i & j & Hij & ->). pose proof (TA c Hc) as Tc. pose proof (TA d Hd) as Td. unfold call_ok in Tc, Td.
      assert (Bc : i < g_rows B /\ j < g_cols B) by (unfold in_call in Hij; lia). destruct Bc as [Bi Bj]. cbn [trmmR_tile a_reads a_writes]. split.
      - intros [(i' & k & Hk & E)|(k & j' & Hk & E)].
        + apply (SEP i j i' k) in E; auto; lia.
        + apply (xA i j k j') in E; auto; lia.
      - intros (i' & j' & Hij' & E). apply (g_distinct SS HSS C hC) in E; try (unfold in_call in *; lia). destruct E as [<- <-]. apply (Dj i j); auto. }
    intros a. split; apply OW; auto. intros i j H1 H2. apply (Dj i j); auto.
  - intros c Hc a. apply in_call_dec.
  - intros m. destruct HP as [hA hB hC sB sC wA pB pC [zA1 zA2] [zC1 zC2] aB aA aC xB xA].
    unfold trmmR, trmmR_ptr. rewrite zA1, zA2, zC1, zC2, !Nat.eqb_refl, !g_ptr_so, sB, sC. cbn [negb order_eqb andb]. apply foldM_in_order. reflexivity.
Qed.
End TrmmRTiles.

Section TrmmLTiles.
Variables (SS cc : nat) (T : Type) (O : Ops T) (al : alloc) (alpha : T) (A B C : marg).
Hypothesis HSS : 0 < SS.
Hypothesis Hcc : 0 < cc.
Hypothesis HP : trmmL_pre SS cc al A B C.
Hypothesis SEP : separate (g_rows B) (g_cols B) (g_addr SS C) (g_rows B) (g_cols B) (g_addr SS B).
Notation TS := (cc * SS).
(** The tiles of the left-hand trmm, each reading its rows of A and its columns of B, from the first row of the tile on. *)
Definition trmmL_tiles : list call := tile TS TS rowMajor (g_rows B) (g_cols B).
Definition trmmL_tile (c : call) : @action T :=
  Action (trmmL_call SS cc T O al (g_rows B) alpha (g_ptr SS A) (g_ptr SS B) (g_ptr SS C) c)
    (fun x => cells (fun i k => k_i c <= i < k_i c + k_m c /\ k_i c <= k < g_rows B) (g_addr SS A) x \/
              cells (fun k j => k_j c <= j < k_j c + k_nn c /\ k_i c <= k < g_rows B) (g_addr SS B) x)
    (cells (in_call c) (g_addr SS C)) (cells (in_call c) (g_addr SS C)).
Lemma blk_from : forall c i, In c trmmL_tiles -> k_i c <= i -> k_i c <= blk SS i.
Proof.
  intros c i Hc Hi. assert (HT : 0 < TS) by nia. destruct (tile_ok_disj_cover TS HT TS HT rowMajor (g_rows B) (g_cols B)) as (TA & _ & _).
  specialize (TA c Hc). destruct TA as (_ & _ & (q & E) & _). unfold blk.
  assert (Q : k_i c = (cc * q) * SS) by nia. rewrite Q in *. assert (cc * q <= i / SS) by (apply Nat.div_le_lower_bound; lia). nia.
Qed.
Lemma trmmL_tile_confined : forall c, In c trmmL_tiles -> confined (trmmL_tile c).
Proof.
  intros c Hc. unfold trmmL_tile. destruct HP as [hA hB hC sA sC wB pA pC [zA1 zA2] [zC1 zC2] aA aB aC xA xB].
  assert (HT : 0 < TS) by nia. destruct (tile_ok_disj_cover TS HT TS HT rowMajor (g_rows B) (g_cols B)) as (TA & TB & TC).
  eapply (confined_updated T _ _ _ _ (fun m i j => trmmL_elem SS T O (g_rows B) alpha (fun i k => m (g_addr SS A i k)) (fun k j => m (g_addr SS B k j)) i j c)).
  - intros m. destruct (trmmL_call_ok SS HSS cc Hcc T O al (g_rows B) (g_cols B) alpha (g_ptr SS A) (g_ptr SS B) (g_ptr SS C) m) with (c := c) (m := m)
      as (m' & E & U1 & U2); auto using g_ptr_wf, g_ptr_lane, g_ptr_store; try (rewrite g_ptr_so; assumption).
    + unfold vmovable. rewrite g_ptr_kind, g_ptr_so. exact wB.
    + intros d i k Hd Hi Hk H. rewrite g_ptr_addr by auto. destruct (TA d Hd) as (T1 & T2 & (q & T3) & (q' & T4) & T5 & T6 & T7 & T8 & T9 & T10 & T11).
      assert (Hup : k_i d + k_rm d * TS <= nextMultiple (g_rows B) TS).
      { apply up_block; auto; [apply ex_mod0 with q; lia|apply Nat.mod_mul; lia]. }
      apply aA; try (unfold Ger_Model.TS in *; lia). destruct H as [H|H]; [left; exact H|right].
      destruct (Nat.eq_dec (g_rows B mod TS) 0) as [Z1|]; auto. destruct (Nat.eq_dec (g_cols B mod TS) 0) as [Z2|]; auto.
      pose proof (all_full SS HSS cc Hcc _ _ _ _ Z1 Z2 Hd). congruence.
    + intros i j Hi Hj. rewrite g_ptr_addr by auto. apply aB; auto.
    + intros i j Hi Hj. rewrite g_ptr_addr by auto. apply aC; auto.
    + intros i j i' j' Hi Hj Hi' Hj' X. rewrite !g_ptr_addr in X by auto. apply (g_distinct SS HSS C hC); lia.
    + exists m'. split; [exact E|]. split.
      * intros i j Hij. rewrite <- g_ptr_addr by auto. rewrite U1 by auto. unfold trmmL_val. rewrite (find_call _ c) by auto. unfold trmmL_elem. destruct (k_full c).
        -- apply fma_chain_ext; intros k Hk; [do 3 f_equal|f_equal]; apply g_ptr_addr; auto.
        -- apply fma_chain_ext; intros k Hk; rewrite g_ptr_addr; auto.
      * intros a Ha. apply U2. intros i j Hij. rewrite g_ptr_addr by auto. auto.
  - cbn beta. intros m1 m2 H i j [Hi Hj]. pose proof (blk_from c i Hc (proj1 Hi)) as HB. unfold trmmL_elem. destruct (k_full c); apply fma_chain_ext; intros k Hk.
    + f_equal. unfold upper_part. destruct (_ <=? _); auto. apply H. left. exists i, (blk SS i + k). split; [lia|reflexivity].
    + apply H. right. exists (blk SS i + k), j. split; [lia|reflexivity].
    + f_equal. apply H. left. exists i, (k_i c + k). split; [lia|reflexivity].
    + apply H. right. exists (k_i c + k), j. split; [lia|reflexivity].
Qed.
Theorem C76_trmm_left_tiles : divides_into (trmmL SS cc T O al alpha A Upper false B C) trmmL_tile trmmL_tiles.
Proof.
  assert (HT : 0 < TS) by nia. destruct (tile_ok_disj_cover TS HT TS HT rowMajor (g_rows B) (g_cols B)) as (TA & TB & TC). split; [|split; [|split]].
  - rewrite Forall_map, Forall_forall. apply trmmL_tile_confined.
  - apply ordpairs_map. eapply ordpairs_impl; [|exact TB]. cbn beta. intros c d Hc Hd Dj.
    destruct HP as [hA hB hC sA sC wB pA pC [zA1 zA2] [zC1 zC2] aA aB aC xA xB].
    assert (OW : forall c d, In c trmmL_tiles -> In d trmmL_tiles -> (forall i j, in_call c i j -> ~ in_call d i j) ->
      forall a, a_writes (trmmL_tile c) a -> ~ a_reads (trmmL_tile d) a /\ ~ a_writes (trmmL_tile d) a).
    { clear c d Hc Hd Dj. intros c d Hc Hd Dj a (i & j & Hij & ->). pose proof (TA c Hc) as Tc. pose proof (TA d Hd) as Td. unfold call_ok in Tc, Td.
      assert (Bc : i < g_rows B /\ j < g_cols B) by (unfold in_call in Hij; lia). destruct Bc as [Bi Bj]. cbn [trmmL_tile a_reads a_writes]. split.
      - intros [(i' & k & Hk & E)|(k & j' & Hk & E)].
        + apply (xA i j i' k) in E; auto; lia.
        + apply (SEP i j k j') in E; auto; lia.
      - intros (i' & j' & Hij' & E). apply (g_distinct SS HSS C hC) in E; try (unfold in_call in *; lia). destruct E as [<- <-]. apply (Dj i j); auto. }
    intros a. split; apply OW; auto. intros i j H1 H2. apply (Dj i j); auto.
  - intros c Hc a. apply in_call_dec.
  - intros m. destruct HP as [hA hB hC sA sC wB pA pC [zA1 zA2] [zC1 zC2] aA aB aC xA xB].
    unfold trmmL, trmmL_ptr. rewrite zA1, zA2, zC1, zC2, !Nat.eqb_refl, !g_ptr_so, sA, sC. cbn [negb order_eqb andb]. apply foldM_in_order. reflexivity.
Qed.
End TrmmLTiles.

(* ------------------------------------------------------------------ run by threads *)
(** ger, syrk and trmm by threads: whatever thread computes a tile and whenever it does, the memory is in the end the one a call of the routine leaves. *)
Theorem C76_parallel_ger : forall SS cc T (O : Ops T) al alpha x y A B m p (share : nat -> list call) s, 0 < SS -> 0 < cc -> ger_pre SS cc al x y A B ->
  Permutation.Permutation (ger_tiles SS cc x y) (concat (map share (seq 0 p))) -> (forall t, p <= t -> share t = []) -> (forall t, length (share t) <= turns t s) ->
  exists ts' m1 m2, scheduled s (fun t => map (ger_tile SS cc T O al alpha x y A B) (share t)) m = Ok (ts', m1) /\
    ger_cm SS cc T O al alpha x y A B m = Ok m2 /\ (forall t, ts' t = []) /\ forall x, m1 x = m2 x.
Proof. intros. eapply C76_parallel; eauto. apply C76_ger_tiles; auto. Qed.
Theorem C76_parallel_syrk : forall SS cc T (O : Ops T) al alpha A beta C D m p (share : nat -> list call) s, 0 < SS -> 0 < cc -> syrk_pre SS cc al A C D ->
  Permutation.Permutation (syrk_tiles SS cc A) (concat (map share (seq 0 p))) -> (forall t, p <= t -> share t = []) -> (forall t, length (share t) <= turns t s) ->
  exists ts' m1 m2, scheduled s (fun t => map (syrk_tile SS cc T O al alpha beta A C D) (share t)) m = Ok (ts', m1) /\
    syrkLower SS cc T O al alpha A beta C D m = Ok m2 /\ (forall t, ts' t = []) /\ forall x, m1 x = m2 x.
Proof. intros. eapply C76_parallel; eauto. apply C76_syrk_tiles; auto. Qed.
Theorem C76_parallel_trmm_right : forall SS cc T (O : Ops T) al alpha B A C m p (share : nat -> list call) s, 0 < SS -> 0 < cc -> trmmR_pre SS cc al B A C ->
  separate (g_rows B) (g_cols B) (g_addr SS C) (g_rows B) (g_cols B) (g_addr SS B) ->
  Permutation.Permutation (trmmR_tiles SS cc B) (concat (map share (seq 0 p))) -> (forall t, p <= t -> share t = []) -> (forall t, length (share t) <= turns t s) ->
  exists ts' m1 m2, scheduled s (fun t => map (trmmR_tile SS cc T O al alpha B A C) (share t)) m = Ok (ts', m1) /\
    trmmR SS cc T O al alpha B A Lower false C m = Ok m2 /\ (forall t, ts' t = []) /\ forall x, m1 x = m2 x.
Proof. intros. eapply C76_parallel; eauto. apply C76_trmm_right_tiles; auto. Qed.
Theorem C76_parallel_trmm_left : forall SS cc T (O : Ops T) al alpha A B C m p (share : nat -> list call) s, 0 < SS -> 0 < cc -> trmmL_pre SS cc al A B C ->
  separate (g_rows B) (g_cols B) (g_addr SS C) (g_rows B) (g_cols B) (g_addr SS B) ->
  Permutation.Permutation (trmmL_tiles SS cc B) (concat (map share (seq 0 p))) -> (forall t, p <= t -> share t = []) -> (forall t, length (share t) <= turns t s) ->
  exists ts' m1 m2, scheduled s (fun t => map (trmmL_tile SS cc T O al alpha A B C) (share t)) m = Ok (ts', m1) /\
    trmmL SS cc T O al alpha A Upper false B C m = Ok m2 /\ (forall t, ts' t = []) /\ forall x, m1 x = m2 x.
Proof. intros. eapply C76_parallel; eauto. apply C76_trmm_left_tiles; auto. Qed.

(** In place the tiles of trmm must be computed in the order of the code: with the right half computed last first, the left half of the result is another one. *)
Definition e_share (t : nat) : list call :=
  match t with 0 => filter (fun c => k_j c =? 0) (trmmR_tiles 4 1 (MArg (whole eB) false)) | 1 => filter (fun c => negb (k_j c =? 0)) (trmmR_tiles 4 1 (MArg (whole eB) false)) | _ => [] end.
Theorem C76_in_place_order_refuted :
  let B := MArg (whole eB) false in let A := MArg (whole eA5) false in
  trmmR_pre 4 1 e_al B A B /\ Permutation.Permutation (trmmR_tiles 4 1 B) (concat (map e_share (seq 0 2))) /\
  match scheduled [1; 1; 0; 0] (fun t => map (trmmR_tile 4 1 Z zops e_al 1%Z B A B) (e_share t)) (fun _ => 2%Z),
        trmmR 4 1 Z zops e_al 1%Z B A Lower false B (fun _ => 2%Z) with
  | Ok (ts', m1), Ok m2 => ts' 0 = [] /\ ts' 1 = [] /\ m1 (g_addr 4 B 0 0) = 24%Z /\ m2 (g_addr 4 B 0 0) = 20%Z
  | _, _ => False end.
Proof.
  cbv zeta. split; [exact C26_in_place_example|]. split; [|vm_compute; auto].
  match goal with |- Permutation.Permutation ?a ?b => let a' := eval vm_compute in a in let b' := eval vm_compute in b in change (Permutation.Permutation a' b') end.
  auto using Permutation.Permutation_refl, Permutation.perm_swap.
Qed.

(* ------------------------------------------------------------------ concrete cases *)
(** The tiles in halves, dealt out to two threads, the second one starting with the last tile. *)
Definition halves (l : list call) (t : nat) : list call := match t with 0 => firstn 1 l | 1 => rev (skipn 1 l) | _ => [] end.
Lemma halves_ok : forall l, Permutation.Permutation l (concat (map (halves l) (seq 0 2))) /\ (forall t, 2 <= t -> halves l t = []).
Proof.
  intros l. split.
  - cbn [seq map concat halves]. rewrite app_nil_r. rewrite <- (firstn_skipn 1 l) at 1. apply Permutation.Permutation_app_head. apply Permutation.Permutation_rev.
  - intros [|[|t]] H; try lia. reflexivity.
Qed.
Example C76_example_tiles : ger_pre 4 1 g_al gx gy (MArg (whole gB) false) (MArg (whole gB) false) /\ length (ger_tiles 4 1 gx gy) = 2 /\
  syrk_pre 4 1 sal (whole sA) (whole sD) (whole sD) /\ length (syrk_tiles 4 1 (whole sA)) = 3 /\
  trmmR_pre 4 1 e_al (MArg (whole eB) false) (MArg (whole eA5) false) (MArg (whole eC) false) /\ length (trmmR_tiles 4 1 (MArg (whole eB) false)) = 4 /\
  trmmL_pre 4 1 e_al (MArg (whole eA) false) (MArg (whole eB) false) (MArg (whole eC) false) /\ length (trmmL_tiles 4 1 (MArg (whole eB) false)) = 2 /\
  separate 6 5 (g_addr 4 (MArg (whole eC) false)) 6 5 (g_addr 4 (MArg (whole eB) false)) /\
  forall t, length (halves (trmmL_tiles 4 1 (MArg (whole eB) false)) t) <= turns t [1; 0].
Proof.
  split; [exact C23_example|]. split; [vm_compute; reflexivity|]. split; [exact C24_example|]. split; [vm_compute; reflexivity|]. split; [exact C26_example|]. split; [vm_compute; reflexivity|].
  split; [exact C25_example|]. split; [vm_compute; reflexivity|]. split; [apply separate_check; vm_compute; reflexivity|].
  intros [|[|t]]; [vm_compute; lia|vm_compute; lia|cbn; lia].
Qed.
