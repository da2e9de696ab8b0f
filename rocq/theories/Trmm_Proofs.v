(** Trmm_Proofs.v -- register trmm and algorithm/Trmm.hpp. *)
From Coq Require Import Arith Lia List Bool PeanoNat ZArith.
From Verif Require Import Base Base_Proofs Spec Algebra_Proofs Layout_Model Layout_Proofs Simd_Model Simd_Proofs
  Reg_Model Reg_Proofs Reg_Proofs2 Vec_Proofs Tile_Model Tile_Proofs Gemm_Model Gemm_Proofs Ger_Model Ger_Proofs Trmm_Model TileOrder_Proofs.
Import ListNotations.

Lemma fma_chain_app : forall T (O : Ops T) a b x y z,
  fma_chain O (a + b) x y z = fma_chain O b (fun k => x (a + k)) (fun k => y (a + k)) (fma_chain O a x y z).
Proof.
  intros T O a b x y z. induction b; cbn [fma_chain].
  - rewrite Nat.add_0_r. reflexivity.
  - rewrite Nat.add_succ_r. cbn [fma_chain]. rewrite IHb. reflexivity.
Qed.

(** A call with fewer rows / columns than its kernel is at the bottom / right edge. *)
Lemma tile_edges : forall SS STEP tr m n c, In c (tile SS STEP tr m n) ->
  (k_m c = k_rm c * SS \/ k_i c + k_m c = m) /\ (k_nn c = STEP \/ k_j c + k_nn c = n).
Proof.
  intros SS STEP tr m n c H.
  assert (CO : forall full j cols, cols = STEP \/ j + cols = n -> In c (tile_column SS STEP full m j cols) ->
    (k_m c = k_rm c * SS \/ k_i c + k_m c = m) /\ (k_nn c = STEP \/ k_j c + k_nn c = n)).
  { intros full j cols Hc Hi. unfold tile_column in Hi. cbv zeta in Hi. rewrite !in_app_iff, !in_map_iff in Hi.
    destruct Hi as [(i & <- & _)|[(i & <- & _)|[(i & <- & _)|Hi]]]; cbn [k_m k_rm k_i k_j k_nn]; auto.
    match type of Hi with context [if ?b then _ else _] => destruct b eqn:E end; [|destruct Hi].
    destruct Hi as [<-|[]]. apply Nat.ltb_lt in E. cbn [k_m k_rm k_i k_j k_nn]. split; [right; lia|auto]. }
  assert (RO : forall RM i, i < m -> In c (tile_backend SS RM STEP m n i) ->
    (k_m c = k_rm c * SS \/ k_i c + k_m c = m) /\ (k_nn c = STEP \/ k_j c + k_nn c = n)).
  { intros RM i Him Hi. unfold tile_backend in Hi. cbv zeta in Hi.
    destruct (_ <=? m); rewrite in_app_iff, in_map_iff in Hi; destruct Hi as [(j & <- & _)|Hi]; cbn [k_m k_rm k_i k_j k_nn]; auto;
      try (split; [right; lia|auto]);
      match type of Hi with context [if ?b then _ else _] => destruct b eqn:E end; try destruct Hi as [<-|[]]; try destruct Hi;
      apply Nat.ltb_lt in E; cbn [k_m k_rm k_i k_j k_nn]; split; auto; right; lia. }
  unfold tile in H. cbv zeta in H. destruct tr; rewrite !in_app_iff, !in_concat in H.
  - destruct H as [(l & Hl & H)|[(l & Hl & H)|(l & Hl & H)]]; apply in_map_iff in Hl; destruct Hl as (i & <- & Hi);
      (eapply RO; [|exact H]); apply steps_in_cond in Hi.
    + apply andb_prop in Hi. apply proj1, Nat.ltb_lt in Hi. lia.
    + apply Nat.ltb_lt in Hi. lia.
    + apply Nat.ltb_lt in Hi. lia.
  - destruct H as [(l & Hl & H)|H].
    + apply in_map_iff in Hl. destruct Hl as (j & <- & Hj). eapply CO; [|exact H]. auto.
    + match type of H with context [if ?b then _ else _] => destruct b eqn:E end; [|destruct H].
      apply Nat.ltb_lt in E. eapply CO; [|exact H]. right. lia.
Qed.

Definition in_callb (i j : nat) (c : call) : bool :=
  (k_i c <=? i) && (i <? k_i c + k_m c) && (k_j c <=? j) && (j <? k_j c + k_nn c).
Lemma in_callb_spec : forall c i j, in_callb i j c = true <-> in_call c i j.
Proof.
  intros c i j. unfold in_callb, in_call. rewrite !andb_true_iff, !Nat.leb_le, !Nat.ltb_lt. lia.
Qed.
Lemma find_call : forall (l : list call) c i j, ForallOrdPairs disjoint_calls l -> In c l -> in_call c i j ->
  find (in_callb i j) l = Some c.
Proof.
  intros l c i j F Hc Hp. induction l as [|d l IH]; [destruct Hc|]. inversion F; subst. cbn [find].
  destruct Hc as [->|Hc].
  - rewrite (proj2 (in_callb_spec c i j) Hp). reflexivity.
  - destruct (in_callb i j d) eqn:E; [|auto]. exfalso. rewrite Forall_forall in H1. apply (H1 c Hc i j); auto.
    apply in_callb_spec; auto.
Qed.

Section RegTrmm.
Variable SS : nat.
Hypothesis HSS : 0 < SS.
Variable T : Type.
Variable O : Ops T.
Notation addr := (addr SS).
Notation poff := (poff SS).
Notation reg_at := (reg_at SS T).
Notation readable := (readable SS).
Notation vec := (vec T).
Notation regs := (regs T).

(** The inner update of a column of registers. *)
Lemma fma_rows : forall n j (ax : nat -> vec) (bx : T) (r : regs),
  exists r', for_ 0 n (fun i r => Ok (rupd T r i j (vfmadd T O (ax i) (vbroadcast T bx) (r i j)))) r = Ok r' /\
    forall i' j', r' i' j' = if (i' <? n) && (j' =? j) then vfmadd T O (ax i') (vbroadcast T bx) (r i' j) else r i' j'.
Proof.
  intros n j ax bx r.
  destruct (for_inv regs (fun k r' => forall i' j', r' i' j' = if (i' <? k) && (j' =? j) then vfmadd T O (ax i') (vbroadcast T bx) (r i' j) else r i' j')
    0 n (fun i r => Ok (rupd T r i j (vfmadd T O (ax i) (vbroadcast T bx) (r i j)))) r) as (r' & E & P); try lia.
  - intros. reflexivity.
  - intros i r1 Hi P. eexists. split; [reflexivity|]. intros i' j'. unfold rupd.
    destruct (Nat.eqb_spec i' i) as [->|Ni], (Nat.eqb_spec j' j) as [->|Nj]; cbn [andb].
    + rewrite (proj2 (Nat.ltb_lt i (S i))) by lia. cbn [andb]. rewrite P, Nat.ltb_irrefl. reflexivity.
    + rewrite P. apply Nat.eqb_neq in Nj. rewrite Nj, !andb_false_r. reflexivity.
    + rewrite P, Nat.eqb_refl, !andb_true_r. destruct (Nat.ltb_spec i' i), (Nat.ltb_spec i' (S i)); auto; lia.
    + rewrite P. apply Nat.eqb_neq in Nj. rewrite Nj, !andb_false_r. reflexivity.
  - exists r'. auto.
Qed.

(** Pointers moved along the rows / columns. *)
Definition col_at (a : mptr) (k : nat) (p : mptr) : Prop :=
  mptr_wf SS p /\ mp_so p = columnMajor /\ lane_ok SS p /\ forall i j, addr p i j = addr a i (k + j).
Lemma col_at_move : forall a k p, col_at a k p -> col_at a (S k) (hmove SS p 1).
Proof.
  intros a k p (W & S & L & E). rewrite hmove_cm by auto. assert (M0 : 0 mod SS = 0) by (apply Nat.mod_0_l; lia).
  split; [apply poff_wf_cm; auto|]. split; [exact S|]. split; [apply lane_poff; auto|].
  intros i j. rewrite addr_poff; auto.
  - rewrite E. f_equal. lia.
  - intros _ _. rewrite S. auto.
Qed.
Lemma col_at_0 : forall a, mptr_wf SS a -> mp_so a = columnMajor -> lane_ok SS a -> col_at a 0 a.
Proof. intros. split; [auto|split; [auto|split; [auto|intros; reflexivity]]]. Qed.
(** Matrices whose pointers can be moved down row by row. *)
Definition vmovable (b : mptr) : Prop := mp_kind b = Dense \/ mp_so b = rowMajor.
Definition row_from (b : mptr) (k : nat) (p : mptr) : Prop :=
  mptr_wf SS p /\ mp_af p = false /\ vmovable p /\ forall i j, addr p i j = addr b (k + i) j.
Lemma row_from_move : forall b k p, row_from b k p -> row_from b (S k) (vmove SS p 1).
Proof.
  intros b k p (W & A & V & E). assert (X : vmove SS p 1 = poff p 1 0).
  { destruct V; [apply vmove_eq; auto; intros K; congruence|apply vmove_rm; auto]. }
  rewrite X. assert (MO : major_ok SS p 1 0) by (intros _ Y; congruence). split; [|split; [|split]].
  - split; cbn; [apply W|intros Y; congruence].
  - exact A.
  - exact V.
  - intros i j. rewrite addr_poff; auto. rewrite E. f_equal. lia.
Qed.
Lemma row_from_0 : forall b, mptr_wf SS b -> vmovable b -> row_from b 0 (punalign SS b).
Proof.
  intros b W V. split; [apply punalign_wf; auto|]. split; [reflexivity|]. split; [exact V|].
  intros. rewrite addr_punalign; auto.
Qed.

(** Element (i, k) of an upper triangular matrix. *)
Definition upper_part (i k : nat) (x : T) : T := if i <=? k then x else o0 O.

(** Column k of the left-hand trmm: the first k+1 rows of A, zero-filled up to the next multiple of SS. *)
Lemma trmm_left_col : forall al RM alpha a k p m, col_at a k p -> k < RM * SS ->
  (forall i, i <= k -> al (addr a i k) = true) ->
  exists ax ax',
    for_ 0 ((k + 1) / SS) (fun i ax => x <- mp_load SS T O al (poff p (i * SS) 0) m ;;
        Ok (fun i' => if i' =? i then vmul T O (vbroadcast T alpha) x else ax i')) (fun _ _ => o0 O) = Ok ax /\
    (if 0 <? (k + 1) mod SS then x <- mp_loadm SS T O al (poff p ((k + 1) / SS * SS) 0) (idx_lt (Z.of_nat ((k + 1) mod SS))) m ;;
        Ok (fun i' => if i' =? (k + 1) / SS then vmul T O (vbroadcast T alpha) x else ax i') else Ok ax) = Ok ax' /\
    forall i l, l < SS -> SS * i <= k -> ax' i l = omul O alpha (upper_part (SS * i + l) k (m (addr a (SS * i + l) k))).
Proof.
  intros al RM alpha a k p m (W & S & L & E) Hk Hal.
  destruct (dm (k + 1) SS HSS) as [Ek Lk]. set (ii := (k + 1) / SS) in *. set (rem := (k + 1) mod SS) in *.
  assert (LD : forall i, i < ii -> exists v, mp_load SS T O al (poff p (i * SS) 0) m = Ok v /\ forall l, l < SS -> v l = m (addr a (SS * i + l) k)).
  { intros i Hi. destruct (load_block SS HSS T O al p (i * SS) 0 m W S) as (v & Ev & Hv); auto.
    - apply Nat.mod_mul; lia.
    - intros l Hl. rewrite E, Nat.add_0_r. apply Hal. assert (SS * (i + 1) <= SS * ii) by (apply Nat.mul_le_mono_l; lia). lia.
    - exists v. split; auto. intros l Hl. rewrite Hv, E by auto. rewrite Nat.add_0_r. f_equal. f_equal. lia. }
  destruct (for_inv (nat -> vec) (fun n ax => forall i l, i < n -> l < SS -> ax i l = omul O alpha (m (addr a (SS * i + l) k)))
    0 ii (fun i ax => x <- mp_load SS T O al (poff p (i * SS) 0) m ;;
        Ok (fun i' => if i' =? i then vmul T O (vbroadcast T alpha) x else ax i')) (fun _ _ => o0 O)) as (ax & E1 & P1); try lia.
  - intros i ax Hi P. destruct (LD i) as (v & Ev & Hv); [lia|]. rewrite Ev. cbn [bind]. eexists. split; [reflexivity|].
    intros i' l Hi' Hl. cbn beta. destruct (Nat.eqb_spec i' i) as [->|N].
    + unfold vmul, vbroadcast. rewrite Hv; auto.
    + apply P; auto; lia.
  - destruct (Nat.ltb_spec 0 rem) as [Hr|Hr].
    + destruct (mp_loadm_cm SS HSS T O al (poff p (ii * SS) 0) (idx_lt (Z.of_nat rem)) m) as (v & Ev & Hv).
      * apply poff_wf_cm; auto. apply Nat.mod_mul; lia.
      * exact S.
      * apply lane_poff; auto. apply Nat.mod_mul; lia.
      * intros l Hl Mk. unfold idx_lt in Mk. apply Z.ltb_lt in Mk. rewrite addr_poff; auto.
        -- rewrite E. rewrite !Nat.add_0_r. apply Hal. lia.
        -- intros _ _. rewrite S. apply Nat.mod_mul; lia.
      * exists ax. eexists. split; [exact E1|]. split; [rewrite Ev; reflexivity|].
        intros i l Hl Hi. cbn beta. destruct (Nat.eqb_spec i ii) as [->|N].
        -- unfold vmul, vbroadcast. rewrite Hv by auto. unfold idx_lt, upper_part.
           rewrite addr_poff; auto; [|intros _ _; rewrite S; apply Nat.mod_mul; lia]. rewrite E, !Nat.add_0_r.
           replace (ii * SS + l) with (SS * ii + l) by lia.
           destruct (Z.ltb_spec (Z.of_nat l) (Z.of_nat rem)), (Nat.leb_spec (SS * ii + l) k); auto; lia.
        -- assert (i < ii) by nia. rewrite P1 by auto. unfold upper_part. destruct (Nat.leb_spec (SS * i + l) k); auto. nia.
    + exists ax, ax. split; [exact E1|]. split; auto. intros i l Hl Hi. assert (i < ii) by nia. rewrite P1 by auto.
      unfold upper_part. destruct (Nat.leb_spec (SS * i + l) k); auto. nia.
Qed.

(** s_i: the first column with a term for row i *)
Definition blk (i : nat) : nat := SS * (i / SS).

Lemma reg_trmm_left_ok : forall al N RM alpha a b m r,
  mptr_wf SS a -> mp_so a = columnMajor -> lane_ok SS a -> mptr_wf SS b -> vmovable b ->
  (forall i k, i <= k -> k < RM * SS -> al (addr a i k) = true) -> readable al b (RM * SS) N ->
  exists r', reg_trmm_left SS T O al N RM alpha a Upper false b m r = Ok r' /\
    forall i j, i < RM * SS -> j < N -> reg_at r' i j =
      fma_chain O (RM * SS - blk i) (fun k => omul O alpha (upper_part i (blk i + k) (m (addr a i (blk i + k)))))
        (fun k => m (addr b (blk i + k) j)) (reg_at r i j).
Proof.
  intros al N RM alpha a b m r Wa Sa La Wb Vb Ha Hb. unfold reg_trmm_left. rewrite cm_only_ok by auto.
  match goal with |- context [for_ 0 (RM * SS) ?f ?s] =>
    destruct (for_inv (regs * mptr * mptr) (fun k st => let '(r', p, q) := st in col_at a k p /\ row_from b k q /\
      forall i j, i < RM * SS -> j < N -> reg_at r' i j =
      fma_chain O (k - blk i) (fun k => omul O alpha (upper_part i (blk i + k) (m (addr a i (blk i + k)))))
        (fun k => m (addr b (blk i + k) j)) (reg_at r i j)) 0 (RM * SS) f s) as ([[r' p] q] & E & P) end; try lia.
  - split; [apply col_at_0; auto|]. split; [apply row_from_0; auto|]. intros i j Hi Hj. cbn [Nat.sub fma_chain]. reflexivity.
  - intros k [[r1 p] q] Hk (Cp & Rq & P).
    destruct (trmm_left_col al RM alpha a k p m Cp) as (ax & ax' & E1 & E2 & Hax); [lia|intros i Hi; apply Ha; lia|].
    rewrite E1. cbn [bind]. rewrite E2. cbn [bind].
    destruct (dm (k + 1) SS HSS) as [Ek Lk]. set (ii := (k + 1) / SS) in *. set (rem := (k + 1) mod SS) in *.
    assert (EQ : forall j, j < N -> rd al m (addr q 0 j) = Ok (m (addr b k j))).
    { intros j Hj. destruct Rq as (_ & _ & _ & Eq). rewrite Eq, Nat.add_0_r. unfold rd. rewrite Hb by lia. reflexivity. }
    match goal with |- context [for_ 0 N ?f r1] =>
      destruct (for_inv regs (fun n r2 => forall i j, r2 i j = if (j <? n) && (SS * i <=? k)
         then vfmadd T O (ax' i) (vbroadcast T (m (addr b k j))) (r1 i j) else r1 i j) 0 N f r1) as (r2 & E3 & P3) end; try lia.
    + intros i j. reflexivity.
    + intros j r2 Hj P2. rewrite EQ by lia. cbn [bind].
      destruct (fma_rows ii j ax' (m (addr b k j)) r2) as (r3 & E3 & P3). rewrite E3. cbn [bind].
      assert (X : forall r4, (forall i' j', r4 i' j' = if (SS * i' <=? k) && (j' =? j) then vfmadd T O (ax' i') (vbroadcast T (m (addr b k j))) (r2 i' j) else r2 i' j') ->
        forall i j0, r4 i j0 = if (j0 <? S j) && (SS * i <=? k) then vfmadd T O (ax' i) (vbroadcast T (m (addr b k j0))) (r1 i j0) else r1 i j0).
      { intros r4 H4 i j'. rewrite H4, !P2. destruct (Nat.eqb_spec j' j) as [->|N0].
        - rewrite andb_true_r, Nat.ltb_irrefl. cbn [andb]. rewrite (proj2 (Nat.ltb_lt j (S j))) by lia. reflexivity.
        - rewrite andb_false_r. destruct (Nat.ltb_spec j' j), (Nat.ltb_spec j' (S j)); auto; lia. }
      destruct (Nat.ltb_spec 0 rem) as [Hr|Hr]; eexists; (split; [reflexivity|]); apply X; intros i' j'.
      * unfold rupd. rewrite !P3. destruct (Nat.eqb_spec i' ii) as [->|N0]; cbn [andb].
        -- assert (G : SS * ii <= k) by lia. apply Nat.leb_le in G. rewrite G, Nat.ltb_irrefl. cbn [andb].
           destruct (j' =? j); reflexivity.
        -- replace (SS * i' <=? k) with (i' <? ii); auto.
           destruct (Nat.ltb_spec i' ii), (Nat.leb_spec (SS * i') k); auto; nia.
      * rewrite P3. replace (SS * i' <=? k) with (i' <? ii); auto.
        destruct (Nat.ltb_spec i' ii), (Nat.leb_spec (SS * i') k); auto; nia.
    + match type of E3 with for_ 0 N ?f r1 = _ => match goal with |- context [for_ 0 N ?g r1] => change g with f end end.
      rewrite E3. cbn [bind]. eexists. split; [reflexivity|]. split; [apply col_at_move; auto|]. split; [apply row_from_move; auto|].
      intros i j Hi Hj. unfold Reg_Model.reg_at at 1. rewrite P3. rewrite (proj2 (Nat.ltb_lt j N)) by lia. cbn [andb].
      destruct (dm i SS HSS) as [Ei Li]. pose proof (P i j Hi Hj) as Pij. unfold blk in *. set (qi := i / SS) in *.
      destruct (Nat.leb_spec (SS * qi) k).
      * replace (S k - SS * qi) with (S (k - SS * qi)) by lia. cbn [fma_chain].
        rewrite <- Pij. unfold vfmadd, vbroadcast. rewrite Hax by auto. rewrite <- Ei.
        replace (SS * qi + (k - SS * qi)) with k by lia. reflexivity.
      * replace (S k - SS * qi) with 0 by lia. replace (k - SS * qi) with 0 in Pij by lia. exact Pij.
  - match goal with |- context [for_ 0 (RM * SS) ?f ?s] => match type of E with for_ _ _ ?g _ = _ => change f with g end end.
    rewrite E. cbn. exists r'. split; auto. apply P.
Qed.

(** The loop of the right-hand trmm. *)
Lemma trmm_right_loop_ok : forall al N RM nn alpha b a m r ck,
  (forall k, k < N -> ck k = (k <? nn)) -> nn <= N ->
  mptr_wf SS b -> mp_so b = columnMajor -> lane_ok SS b -> mptr_wf SS a -> vmovable a ->
  readable al b (RM * SS) nn -> (forall k j, j <= k -> k < nn -> al (addr a k j) = true) ->
  exists r', trmm_right_loop SS T O al N RM ck alpha b a m r = Ok r' /\
    forall i j, i < RM * SS -> j < N -> reg_at r' i j =
      fma_chain O (nn - j) (fun k => omul O alpha (m (addr b i (j + k)))) (fun k => m (addr a (j + k) j)) (reg_at r i j).
Proof.
  intros al N RM nn alpha b a m r ck Hck Hnn Wb Sb Lb Wa Va Hb Ha. unfold trmm_right_loop.
  match goal with |- context [for_ 0 N ?f ?s] =>
    destruct (for_inv (regs * mptr * mptr) (fun k st => let '(r', p, q) := st in
      col_at b (min k nn) p /\ row_from a (min k nn) q /\
      forall i j, i < RM * SS -> j < N -> reg_at r' i j =
      fma_chain O (min k nn - j) (fun k => omul O alpha (m (addr b i (j + k)))) (fun k => m (addr a (j + k) j)) (reg_at r i j)) 0 N f s) as ([[r' p] q] & E & P) end; try lia.
  - rewrite Nat.min_0_l. split; [apply col_at_0; auto|]. split; [apply row_from_0; auto|]. intros i j Hi Hj. reflexivity.
  - intros k [[r1 p] q] Hk (Cp & Rq & P). rewrite Hck by lia. destruct (Nat.ltb_spec k nn) as [Hlt|Hge].
    2: { eexists. split; [reflexivity|]. replace (min (S k) nn) with (min k nn) by lia. auto. }
    rewrite (Nat.min_l k nn) in * by lia. rewrite (Nat.min_l (S k) nn) by lia.
    pose proof Cp as (W & S & L & E).
    assert (LB : exists bx, for_ 0 RM (fun i bx => x <- mp_load SS T O al (poff p (i * SS) 0) m ;;
        Ok (fun i' => if i' =? i then vmul T O (vbroadcast T alpha) x else bx i')) (fun _ _ => o0 O) = Ok bx /\
        forall i l, i < RM -> l < SS -> bx i l = omul O alpha (m (addr b (SS * i + l) k))).
    { apply (for_inv (nat -> vec) (fun n bx => forall i l, i < n -> l < SS -> bx i l = omul O alpha (m (addr b (SS * i + l) k)))); try lia.
      - intros i bx Hi Pb. destruct (load_block SS HSS T O al p (i * SS) 0 m W S) as (v & Ev & Hv).
        + apply Nat.mod_mul; lia.
        + intros l Hl. rewrite E, Nat.add_0_r. apply Hb; nia.
        + rewrite Ev. cbn [bind]. eexists. split; [reflexivity|]. intros i' l Hi' Hl. cbn beta. destruct (Nat.eqb_spec i' i) as [->|N0].
          * unfold vmul, vbroadcast. rewrite Hv, E by auto. rewrite Nat.add_0_r. do 3 f_equal. lia.
          * apply Pb; auto; lia. }
    destruct LB as (bx & E1 & Hbx). rewrite E1. cbn [bind].
    assert (EQ : forall j, j <= k -> rd al m (addr q 0 j) = Ok (m (addr a k j))).
    { intros j Hj. destruct Rq as (_ & _ & _ & Eq). rewrite Eq, Nat.add_0_r. unfold rd. rewrite Ha by lia. reflexivity. }
    match goal with |- context [for_ 0 (k + 1) ?f r1] =>
      destruct (for_inv regs (fun n r2 => forall i j, i < RM -> r2 i j = if j <? n
         then vfmadd T O (bx i) (vbroadcast T (m (addr a k j))) (r1 i j) else r1 i j) 0 (k + 1) f r1) as (r2 & E3 & P3) end; try lia.
    + intros i j _. reflexivity.
    + intros j r2 Hj P2. rewrite EQ by lia. cbn [bind].
      destruct (fma_rows RM j bx (m (addr a k j)) r2) as (r3 & E3 & P3). rewrite E3. exists r3. split; auto.
      intros i j' Hi. rewrite P3, (proj2 (Nat.ltb_lt i RM)) by auto. cbn [andb]. destruct (Nat.eqb_spec j' j) as [->|N0].
      * rewrite P2, Nat.ltb_irrefl by auto. rewrite (proj2 (Nat.ltb_lt j (Datatypes.S j))) by lia. reflexivity.
      * rewrite P2 by auto. destruct (Nat.ltb_spec j' j), (Nat.ltb_spec j' (Datatypes.S j)); auto; lia.
    + match type of E3 with for_ 0 _ ?f r1 = _ => match goal with |- context [for_ 0 (k + 1) ?g r1] => change g with f end end.
      rewrite E3. cbn [bind]. eexists. split; [reflexivity|]. split; [apply col_at_move; auto|]. split; [apply row_from_move; auto|].
      intros i j Hi Hj. destruct (elem_split SS HSS i RM Hi) as (Ei1 & Ei2 & Ei3).
      unfold Reg_Model.reg_at at 1. rewrite P3 by auto.
      destruct (Nat.ltb_spec j (k + 1)).
      * replace (Datatypes.S k - j) with (Datatypes.S (k - j)) by lia. cbn [fma_chain].
        rewrite <- P by auto. unfold vfmadd, vbroadcast. rewrite Hbx by auto. rewrite <- Ei3.
        replace (j + (k - j)) with k by lia. reflexivity.
      * replace (Datatypes.S k - j) with 0 by lia. specialize (P i j Hi Hj). replace (k - j) with 0 in P by lia. exact P.
  - match goal with |- context [for_ 0 N ?f ?s] => match type of E with for_ _ _ ?g _ = _ => change f with g end end.
    rewrite E. cbn. exists r'. split; auto. rewrite Nat.min_r in P by lia. apply P.
Qed.
End RegTrmm.

Section Trmm.
Variable SS : nat.
Hypothesis HSS : 0 < SS.
Variable cc : nat.
Hypothesis Hcc : 0 < cc.
Variable T : Type.
Variable O : Ops T.
Notation addr := (addr SS).
Notation poff := (poff SS).
Notation reg_at := (reg_at SS T).
Notation readable := (readable SS).
Notation TS := (TS SS cc).

Lemma reg_gemm_ok : forall al N RM K alpha a b m r,
  mptr_wf SS a -> mp_so a = columnMajor -> lane_ok SS a -> mptr_wf SS b ->
  readable al a (RM * SS) K -> readable al b K N ->
  exists r', reg_gemm SS T O al N RM K alpha a b m r = Ok r' /\
    forall i j, i < RM * SS -> j < N -> reg_at r' i j =
      fma_chain O K (fun k => omul O alpha (m (addr a i k))) (fun k => m (addr b k j)) (reg_at r i j).
Proof.
  intros al N RM K alpha a b m r Wa Sa La Wb Ra Rb. unfold reg_gemm. rewrite cm_only_ok by auto.
  match goal with |- context [for_ 0 K ?st r] =>
  destruct (ger_loop_ok SS HSS T O al N RM K always (fun x : vec T => vmul T O (vbroadcast T alpha) x) (fun x => omul O alpha x)
         a (punalign SS b) m r st) as (r' & E & P & _); auto end.
  - apply punalign_wf; auto.
  - cbn. discriminate.
  - intros k j Hk Hj _. rewrite addr_punalign by auto. apply Rb; lia.
  - exists r'. split; auto. intros i j Hi Hj. rewrite P by (auto; lia).
    apply fma_chain_ext; intros k Hk; [|rewrite addr_punalign by auto]; reflexivity.
Qed.
Lemma reg_gemm_mn_ok : forall al N RM K alpha a b mm nn m r, nn <= N ->
  mptr_wf SS a -> mp_so a = columnMajor -> lane_ok SS a -> mptr_wf SS b ->
  readable al a (RM * SS) K -> readable al b K nn ->
  exists r', reg_gemm_mn SS T O al N RM K alpha a b mm nn m r = Ok r' /\
    forall i j, i < RM * SS -> j < nn -> reg_at r' i j =
      fma_chain O K (fun k => omul O alpha (m (addr a i k))) (fun k => m (addr b k j)) (reg_at r i j).
Proof.
  intros al N RM K alpha a b mm nn m r Hn Wa Sa La Wb Ra Rb. unfold reg_gemm_mn. rewrite cm_only_ok by auto.
  match goal with |- context [for_ 0 K ?st r] =>
  destruct (ger_loop_ok SS HSS T O al N RM K (fun j => j <? nn) (fun x : vec T => vmul T O (vbroadcast T alpha) x) (fun x => omul O alpha x)
         a (punalign SS b) m r st) as (r' & E & P & _); auto end.
  - apply punalign_wf; auto.
  - cbn. discriminate.
  - intros k j Hk Hj C. apply Nat.ltb_lt in C. rewrite addr_punalign by auto. apply Rb; lia.
  - exists r'. split; auto. intros i j Hi Hj. rewrite P by (try lia; apply Nat.ltb_lt; lia).
    apply fma_chain_ext; intros k Hk; [|rewrite addr_punalign by auto]; reflexivity.
Qed.

(** Aligned offsets of a pointer of any storage order. *)
Lemma off_props : forall p i j, mptr_wf SS p -> i mod SS = 0 -> j mod SS = 0 ->
  mptr_wf SS (poff p i j) /\ forall u v, addr (poff p i j) u v = addr p (i + u) (j + v).
Proof.
  intros p i j W Hi Hj. split.
  - apply poff_wf; auto. destruct (mp_so p); auto.
  - intros. apply addr_poff; auto. intros _ _. destruct (mp_so p); auto.
Qed.
Lemma vmovable_off : forall p i j, vmovable p -> vmovable (poff p i j).
Proof. intros p i j H. exact H. Qed.
Lemma blk_le : forall i, blk SS i <= i.
Proof. intros i. unfold blk. apply Nat.mul_div_le. lia. Qed.
Lemma blk_off : forall i0 u, i0 mod SS = 0 -> blk SS (i0 + u) = i0 + blk SS u.
Proof.
  intros i0 u H. apply mod0_ex in H; auto. destruct H as [q ->]. unfold blk.
  replace (SS * q + u) with (u + q * SS) by lia. rewrite Nat.div_add by lia. lia.
Qed.

(** Element (i, j) of the left-hand product as computed by the kernel that handles it. *)
Definition trmmL_elem (M : nat) (alpha : T) (a b : nat -> nat -> T) (i j : nat) (c : call) : T :=
  if k_full c
  then fma_chain O (M - blk SS i) (fun k => omul O alpha (upper_part T O i (blk SS i + k) (a i (blk SS i + k))))
         (fun k => b (blk SS i + k) j) (o0 O)
  else fma_chain O (M - k_i c) (fun k => omul O alpha (a i (k_i c + k))) (fun k => b (k_i c + k) j) (o0 O).
Definition trmmL_val (M N : nat) (alpha : T) (a b : nat -> nat -> T) (i j : nat) : T :=
  match find (in_callb i j) (tile TS TS rowMajor M N) with
  | Some c => trmmL_elem M alpha a b i j c
  | None => o0 O
  end.

Lemma all_full : forall tr M N c, M mod TS = 0 -> N mod TS = 0 -> In c (tile TS TS tr M N) -> k_full c = true.
Proof.
  intros tr M N c HM HN Hc. pose proof (TS_pos SS HSS cc Hcc) as HT.
  destruct (tile_ok_disj_cover TS HT TS HT tr M N) as (TA & _ & _). specialize (TA c Hc).
  destruct TA as (T1 & T2 & (q & T3) & (q' & T4) & T5 & T6 & T7 & T8 & T9 & T10 & T11).
  destruct (tile_edges _ _ _ _ _ _ Hc) as [E1 E2]. apply T9.
  apply mod0_ex in HM; auto. apply mod0_ex in HN; auto. destruct HM as [x ->], HN as [y ->].
  generalize dependent (TS); intros t HT; intros.
  assert (k_m c = k_rm c * t).
  { destruct E1 as [E1|E1]; auto. assert (q + k_rm c < x + 1) by nia. nia. }
  split; auto. destruct E2 as [E2|E2]; [lia|]. rewrite T4 in E2. assert (q' < y) by nia. nia.
Qed.

(** One call: it needs the initial values of A, and those of B from its first row on, in its columns. *)
Lemma trmmL_call_ok : forall al M N alpha A B C m0,
  mptr_wf SS A -> mp_so A = columnMajor -> lane_ok SS A -> mptr_wf SS B -> vmovable B ->
  mptr_wf SS C -> mp_so C = columnMajor -> store_ok C ->
  (forall c i k, In c (tile TS TS rowMajor M N) -> k_i c <= i < k_i c + k_rm c * TS -> k_i c <= k < M -> i <= k \/ k_full c = false -> al (addr A i k) = true) ->
  readable al B M N -> readable al C M N ->
  distinct M N (addr C) ->
  forall c m, In c (tile TS TS rowMajor M N) ->
  (forall i k, i < M -> k < M -> m (addr A i k) = m0 (addr A i k)) ->
  (forall k j, k_i c <= k < M -> k_j c <= j < k_j c + k_nn c -> m (addr B k j) = m0 (addr B k j)) ->
  exists m', trmmL_call SS cc T O al M alpha A B C c m = Ok m' /\
    updated (in_call c) (addr C) (trmmL_val M N alpha (fun i k => m0 (addr A i k)) (fun k j => m0 (addr B k j))) m m'.
Proof.
  intros al M N alpha A B C m0 Wa Sa La Wb Vb Wc Sc Stc Ra Rb Rc Hd c m Hc HA HB.
  pose proof (TS_pos SS HSS cc Hcc) as HT.
  destruct (tile_ok_disj_cover TS HT TS HT rowMajor M N) as (TA & TB & TC).
    pose proof (TA c Hc) as TA'.
    destruct TA' as (T1 & T2 & (q & T3) & (q' & T4) & T5 & T6 & T7 & T8 & T9 & T10 & T11).
    set (i0 := k_i c) in *. set (j0 := k_j c) in *.
    assert (Hi1 : i0 mod TS = 0) by (apply ex_mod0 with q; lia).
    assert (Hi0 : i0 mod SS = 0) by (apply (TS_mod SS HSS cc Hcc); auto).
    assert (Hj0 : j0 mod SS = 0) by (apply (TS_mod SS HSS cc Hcc); apply ex_mod0 with q'; auto; lia).
    assert (H00 : 0 mod SS = 0) by (apply Nat.mod_0_l; lia).
    assert (ERM : k_rm c * cc * SS = k_rm c * TS) by (unfold Ger_Model.TS; lia).
    assert (HKM : (k_rm c * TS) mod SS = 0) by (rewrite <- ERM; apply Nat.mod_mul; lia).
    destruct (off_props A i0 i0 Wa Hi0 Hi0) as [WA EA]. set (a := poff A i0 i0) in *.
    destruct (off_props B i0 0 Wb Hi0 H00) as [WB0 EB0]. set (b0 := poff B i0 0) in *.
    destruct (off_props C i0 0 Wc Hi0 H00) as [WC0 EC0]. set (c0 := poff C i0 0) in *.
    destruct (off_props c0 0 j0 WC0 H00 Hj0) as [WC EC]. set (pc := poff c0 0 j0) in *.
    destruct (off_props b0 0 j0 WB0 H00 Hj0) as [WB EB]. set (b := poff b0 0 j0) in *.
    assert (EC' : forall u v, addr pc u v = addr C (i0 + u) (j0 + v)) by (intros; rewrite EC, EC0; reflexivity).
    assert (EB' : forall u v, addr b u v = addr B (i0 + u) (j0 + v)) by (intros; rewrite EB, EB0; reflexivity).
    assert (LA : lane_ok SS a) by (apply lane_poff; auto).
    assert (VAL : forall u v, in_call c (i0 + u) (j0 + v) -> trmmL_val M N alpha (fun i k => m0 (addr A i k)) (fun k j => m0 (addr B k j)) (i0 + u) (j0 + v) =
        trmmL_elem M alpha (fun i k => m0 (addr A i k)) (fun k j => m0 (addr B k j)) (i0 + u) (j0 + v) c).
    { intros u v Hp. unfold trmmL_val. rewrite (find_call _ c) by auto. reflexivity. }
    destruct (reg_reset_ok SS HSS T O (k_n c) (k_rm c * cc) (reg0 T O)) as (r1 & E1 & P1).
    unfold trmmL_call. cbv zeta. fold i0 j0. fold a b0 c0. fold b pc. rewrite E1. cbn [bind]. destruct (k_full c) eqn:F.
    + assert (X : k_m c = k_rm c * TS /\ k_nn c = k_n c) by tauto. destruct X as [X1 X2].
      destruct (reg_trmm_left_ok SS HSS T O al (k_n c) (k_rm c * cc) alpha a b m r1) as (r2 & E2 & P2); auto.
      { intros u k Huk Hk. rewrite EA. apply (Ra c); auto; fold i0; lia. }
      { intros u v Hu Hv. rewrite EB'. apply Rb; lia. }
      rewrite E2. cbn [bind].
      destruct (off_props a 0 (k_rm c * TS) WA H00 HKM) as [WA2 EA2]. set (a2 := poff a 0 (k_rm c * TS)) in *.
      destruct (off_props b0 (k_rm c * TS) j0 WB0 HKM Hj0) as [WB2 EB2]. set (b2 := poff b0 (k_rm c * TS) j0) in *.
      destruct (reg_gemm_ok al (k_n c) (k_rm c * cc) (M - i0 - k_rm c * TS) alpha a2 b2 m r2) as (r3 & E3 & P3); auto.
      { apply lane_poff; auto. }
      { intros u v Hu Hv. rewrite EA2, EA. apply (Ra c); auto; fold i0; lia. }
      { intros u v Hu Hv. rewrite EB2, EB0. apply Rb; lia. }
      rewrite E3. cbn [bind].
      destruct (reg_store_region SS HSS T al (k_n c) (k_rm c * cc) pc r3 WC Sc Stc) as (W & E & R).
      { intros u v Hu Hv. rewrite EC'. apply Rc; lia. }
      destruct (region_writes T _ W _ _ _ E R) with (m := m) as (m' & Em & U).
      { intros i j i' j' [] [] X. rewrite !EC' in X. apply Hd in X; lia. }
      exists m'. split; [exact Em|].
      apply (lift_block T (addr C) (addr pc) i0 j0 (fun i j => i < k_rm c * cc * SS /\ j < k_n c) (in_call c) _ (reg_at r3)); auto.
      * intros u v [Hu Hv]. rewrite VAL by (unfold in_call; fold i0 j0; lia). unfold trmmL_elem. rewrite F.
        rewrite P3, P2, P1 by auto. rewrite blk_off by auto. rewrite ERM. pose proof (blk_le u) as HbU.
        replace (M - (i0 + blk SS u)) with ((k_rm c * TS - blk SS u) + (M - i0 - k_rm c * TS)) by lia.
        rewrite fma_chain_app.
        match goal with |- fma_chain O ?n ?x ?y ?z = fma_chain O ?n ?x' ?y' ?z' => assert (Z : z = z') end.
        { apply fma_chain_ext; intros k Hk.
          - rewrite EA, HA by lia. rewrite <- !Nat.add_assoc. unfold upper_part.
            replace (i0 + u <=? i0 + (blk SS u + k)) with (u <=? blk SS u + k); auto.
            destruct (Nat.leb_spec u (blk SS u + k)), (Nat.leb_spec (i0 + u) (i0 + (blk SS u + k))); auto; lia.
          - rewrite EB', HB by lia. rewrite <- !Nat.add_assoc. reflexivity. }
        rewrite Z. apply fma_chain_ext; intros k Hk.
        -- rewrite EA2, EA. replace (i0 + (k_rm c * TS + k)) with (i0 + blk SS u + (k_rm c * TS - blk SS u + k)) by lia.
           rewrite Nat.add_0_l, HA by lia. unfold upper_part.
           destruct (Nat.leb_spec (i0 + u) (i0 + blk SS u + (k_rm c * TS - blk SS u + k))); auto. lia.
        -- rewrite EB2, EB0. replace (i0 + (k_rm c * TS + k)) with (i0 + blk SS u + (k_rm c * TS - blk SS u + k)) by lia.
           rewrite Nat.add_0_l, HB by lia. reflexivity.
      * intros i j. unfold in_call. fold i0 j0. lia.
    + destruct (reg_gemm_mn_ok al (k_n c) (k_rm c * cc) (M - i0) alpha a b (k_m c) (k_nn c) m r1) as (r3 & E3 & P3); auto; try lia.
      { intros u v Hu Hv. rewrite EA. apply (Ra c); auto; fold i0; lia. }
      { intros u v Hu Hv. rewrite EB'. apply Rb; lia. }
      rewrite E3. cbn [bind].
      destruct (reg_store_mn_region SS HSS T al (k_n c) (k_rm c * cc) pc r3 WC Sc Stc (k_m c) (k_nn c)) as (W & E & R); try lia.
      { intros u v Hu Hv. rewrite EC'. apply Rc; lia. }
      destruct (region_writes T _ W _ _ _ E R) with (m := m) as (m' & Em & U).
      { intros i j i' j' [] [] X. rewrite !EC' in X. apply Hd in X; lia. }
      exists m'. split; [exact Em|].
      apply (lift_block T (addr C) (addr pc) i0 j0 (fun i j => i < k_m c /\ j < k_nn c) (in_call c) _ (reg_at r3)); auto.
      * intros u v [Hu Hv]. rewrite VAL by (unfold in_call; fold i0 j0; lia). unfold trmmL_elem. rewrite F.
        rewrite P3, P1 by lia. fold i0. apply fma_chain_ext; intros k Hk.
        -- rewrite EA, HA by lia. reflexivity.
        -- rewrite EB', HB by lia. reflexivity.
      * intros i j. unfold in_call. fold i0 j0. lia.
Qed.

Lemma trmmL_ptr_needs : forall al M N alpha A B C m0,
  mptr_wf SS A -> mp_so A = columnMajor -> lane_ok SS A -> mptr_wf SS B -> vmovable B ->
  mptr_wf SS C -> mp_so C = columnMajor -> store_ok C ->
  (forall c i k, In c (tile TS TS rowMajor M N) -> k_i c <= i < k_i c + k_rm c * TS -> k_i c <= k < M -> i <= k \/ k_full c = false -> al (addr A i k) = true) ->
  readable al B M N -> readable al C M N ->
  distinct M N (addr C) ->
  separate M N (addr C) M M (addr A) -> separate M N (addr C) M N (addr B) \/ (forall k j, k < M -> j < N -> addr B k j = addr C k j) ->
  exists m', trmmL_ptr SS cc T O al M N alpha A Upper false B C m0 = Ok m' /\
    updated (block M N) (addr C)
      (trmmL_val M N alpha (fun i k => m0 (addr A i k)) (fun k j => m0 (addr B k j))) m0 m'.
Proof.
  intros al M N alpha A B C m0 Wa Sa La Wb Vb Wc Sc Stc Ra Rb Rc Hd SA SB.
  unfold trmmL_ptr. rewrite Sa, Sc. cbn [order_eqb andb negb].
  pose proof (TS_pos SS HSS cc Hcc) as HT.
  destruct (tile_ok_disj_cover TS HT TS HT rowMajor M N) as (TA & TB & TC).
  apply (tiled_in_order call T _ _ in_call (block M N) (addr C)).
  - intros c i j Hc Hij. apply TA in Hc. unfold call_ok, in_call, block in *. lia.
  - intros i j [Hi Hj]. apply TC; auto.
  - intros i j i' j' [] [] X. apply Hd; auto.
  - eapply FOP_impl; [|exact TB]. intros c d X i j Y Z. apply (X i j); auto.
  - intros pre c post m El Hag.
    assert (Hc : In c (tile TS TS rowMajor M N)) by (rewrite El; apply in_or_app; right; left; reflexivity).
    assert (Pre : forall d i j, In d pre -> in_call d i j -> i < M /\ j < N).
    { intros d i j Hd' Hij. assert (Id : In d (tile TS TS rowMajor M N)) by (rewrite El; apply in_or_app; auto).
      apply TA in Id. unfold call_ok, in_call in *. lia. }
    pose proof (TA c Hc) as (_ & _ & _ & _ & K1 & K2 & K3 & K4 & _).
    apply trmmL_call_ok; auto.
    + intros i k Hi Hk. apply Hag. intros d i' j' Hd' Hij X. destruct (Pre d i' j' Hd' Hij). symmetry in X. apply (SA i' j' i k); auto.
    + intros k j Hk Hj. apply Hag. intros d i' j' Hd' Hij X. destruct (Pre d i' j' Hd' Hij) as [P1 P2]. destruct SB as [SB|SB].
      * symmetry in X. apply (SB i' j' k j); auto; lia.
      * rewrite SB in X by lia. apply Hd in X; try lia. destruct X as [-> ->].
        refine (tile_behind TS TS rowMajor M N pre c post d i' j' HT HT El Hd' _ Hij). split; lia.
Qed.

Lemma trmmL_ptr_ok : forall al M N alpha A B C m0,
  mptr_wf SS A -> mp_so A = columnMajor -> lane_ok SS A -> mptr_wf SS B -> vmovable B ->
  mptr_wf SS C -> mp_so C = columnMajor -> store_ok C ->
  (forall i k, i < nextMultiple M TS -> k < M -> i <= k \/ M mod TS <> 0 \/ N mod TS <> 0 -> al (addr A i k) = true) ->
  readable al B M N -> readable al C M N ->
  distinct M N (addr C) ->
  separate M N (addr C) M M (addr A) -> separate M N (addr C) M N (addr B) \/ (forall k j, k < M -> j < N -> addr B k j = addr C k j) ->
  exists m', trmmL_ptr SS cc T O al M N alpha A Upper false B C m0 = Ok m' /\
    updated (block M N) (addr C)
      (trmmL_val M N alpha (fun i k => m0 (addr A i k)) (fun k j => m0 (addr B k j))) m0 m'.
Proof.
  intros al M N alpha A B C m0 Wa Sa La Wb Vb Wc Sc Stc Ra Rb Rc Hd SA SB. apply trmmL_ptr_needs; auto.
  intros c i k Hc Hi Hk H. pose proof (TS_pos SS HSS cc Hcc) as HT. destruct (tile_ok_disj_cover TS HT TS HT rowMajor M N) as (TA & _ & _).
  destruct (TA c Hc) as (T1 & T2 & (q & T3) & (q' & T4) & T5 & T6 & T7 & T8 & T9 & T10 & T11).
  assert (Hup : k_i c + k_rm c * TS <= nextMultiple M TS).
  { apply up_block; auto; [apply ex_mod0 with q; lia|apply Nat.mod_mul; lia]. }
  apply Ra; try lia. destruct H as [H|H]; [left; exact H|right].
  destruct (Nat.eq_dec (M mod TS) 0) as [Z1|]; auto. destruct (Nat.eq_dec (N mod TS) 0) as [Z2|]; auto.
  pose proof (all_full _ _ _ _ Z1 Z2 Hc). congruence.
Qed.

(** Element (i, j) of the right-hand product. *)
Definition trmmR_val (N : nat) (alpha : T) (b a : nat -> nat -> T) (i j : nat) : T :=
  fma_chain O (N - j) (fun k => omul O alpha (b i (j + k))) (fun k => a (j + k) j) (o0 O).

(** One call: it needs the initial values of A, and those of B from its first column on, in its rows. *)
Lemma trmmR_call_ok : forall al M N alpha B A unit C m0,
  (unit = true -> M < TS \/ N < TS) ->
  mptr_wf SS B -> mp_so B = columnMajor -> lane_ok SS B -> mptr_wf SS A -> vmovable A ->
  mptr_wf SS C -> mp_so C = columnMajor -> store_ok C ->
  readable al B (nextMultiple M TS) N -> (forall k j, j <= k -> k < N -> al (addr A k j) = true) -> readable al C M N ->
  distinct M N (addr C) ->
  forall c m, In c (tile TS TS columnMajor M N) ->
  (forall i k, i < N -> k < N -> m (addr A i k) = m0 (addr A i k)) ->
  (forall i k, k_i c <= i < k_i c + k_m c -> k_j c <= k < N -> m (addr B i k) = m0 (addr B i k)) ->
  exists m', trmmR_call SS cc T O al N alpha B A unit C c m = Ok m' /\
    updated (in_call c) (addr C) (trmmR_val N alpha (fun i k => m0 (addr B i k)) (fun k j => m0 (addr A k j))) m m'.
Proof.
  intros al M N alpha B A unit C m0 Hu Wb Sb Lb Wa Va Wc Sc Stc Rb Ra Rc Hd c m Hc HA HB.
  pose proof (TS_pos SS HSS cc Hcc) as HT.
  destruct (tile_ok_disj_cover TS HT TS HT columnMajor M N) as (TA & TB & TC).
    pose proof (TA c Hc) as TA'.
    destruct TA' as (T1 & T2 & (q & T3) & (q' & T4) & T5 & T6 & T7 & T8 & T9 & T10 & T11).
    set (i0 := k_i c) in *. set (j0 := k_j c) in *.
    assert (Hi1 : i0 mod TS = 0) by (apply ex_mod0 with q; lia).
    assert (Hi0 : i0 mod SS = 0) by (apply (TS_mod SS HSS cc Hcc); auto).
    assert (Hj1 : j0 mod TS = 0) by (apply ex_mod0 with q'; lia).
    assert (Hj0 : j0 mod SS = 0) by (apply (TS_mod SS HSS cc Hcc); auto).
    assert (HTm : TS mod SS = 0) by (apply (TS_mod SS HSS cc Hcc); apply Nat.mod_same; lia).
    assert (HjT : (j0 + TS) mod SS = 0) by (rewrite Nat.add_mod, Hj0, HTm by lia; apply Nat.mod_0_l; lia).
    assert (H00 : 0 mod SS = 0) by (apply Nat.mod_0_l; lia).
    assert (ERM : k_rm c * cc * SS = k_rm c * TS) by (unfold Ger_Model.TS; lia).
    assert (Hup : i0 + k_rm c * TS <= nextMultiple M TS) by (apply up_block; auto; apply Nat.mod_mul; lia).
    destruct (off_props B i0 j0 Wb Hi0 Hj0) as [WB EB]. set (b := poff B i0 j0) in *.
    destruct (off_props A j0 j0 Wa Hj0 Hj0) as [WA EA]. set (a := poff A j0 j0) in *.
    destruct (off_props C i0 j0 Wc Hi0 Hj0) as [WC EC]. set (pc := poff C i0 j0) in *.
    destruct (off_props B i0 (j0 + TS) Wb Hi0 HjT) as [WB2 EB2]. set (b2 := poff B i0 (j0 + TS)) in *.
    destruct (off_props A (j0 + TS) j0 Wa HjT Hj0) as [WA2 EA2]. set (a2 := poff A (j0 + TS) j0) in *.
    assert (LB : lane_ok SS b) by (apply lane_poff; auto).
    assert (LB2 : lane_ok SS b2) by (apply lane_poff; auto).
    assert (R0 : forall i j, reg_at (reg0 T O) i j = o0 O) by reflexivity.
    unfold trmmR_call. cbv zeta. fold i0 j0. fold a b pc a2 b2. destruct (k_full c) eqn:F.
    + assert (X : k_m c = k_rm c * TS /\ k_nn c = k_n c) by tauto. destruct X as [X1 X2].
      assert (EU : unit = false). { destruct unit; auto. destruct (Hu eq_refl); nia. }
      rewrite EU. unfold reg_trmm_right. rewrite cm_only_ok by auto.
      destruct (trmm_right_loop_ok SS HSS T O al (k_n c) (k_rm c * cc) (k_n c) alpha b a m (reg0 T O) always) as (r2 & E2 & P2); auto.
      { intros k Hk. symmetry. apply Nat.ltb_lt. auto. }
      { intros u v Hu' Hv. rewrite EB. apply Rb; lia. }
      { intros k j Hjk Hk. rewrite EA. apply Ra; lia. }
      rewrite E2. cbn [bind noexcept].
      destruct (reg_gemm_ok al (k_n c) (k_rm c * cc) (N - j0 - TS) alpha b2 a2 m r2) as (r3 & E3 & P3); auto.
      { intros u v Hu' Hv. rewrite EB2. apply Rb; lia. }
      { intros u v Hu' Hv. rewrite EA2. apply Ra; lia. }
      rewrite E3. cbn [bind].
      destruct (reg_store_region SS HSS T al (k_n c) (k_rm c * cc) pc r3 WC Sc Stc) as (W & E & R).
      { intros u v Hu' Hv. rewrite EC. apply Rc; lia. }
      destruct (region_writes T _ W _ _ _ E R) with (m := m) as (m' & Em & U).
      { intros i j i' j' [] [] X. rewrite !EC in X. apply Hd in X; lia. }
      exists m'. split; [exact Em|].
      apply (lift_block T (addr C) (addr pc) i0 j0 (fun i j => i < k_rm c * cc * SS /\ j < k_n c) (in_call c) _ (reg_at r3)); auto.
      * intros u v [Hu' Hv]. rewrite P3, P2, R0 by auto. unfold trmmR_val. rewrite T2 in *.
        replace (N - (j0 + v)) with ((TS - v) + (N - j0 - TS)) by lia. rewrite fma_chain_app.
        match goal with |- fma_chain O ?n ?x ?y ?z = fma_chain O ?n ?x' ?y' ?z' => assert (Z : z = z') end.
        { apply fma_chain_ext; intros k Hk.
          - rewrite EB, HB by lia. rewrite <- !Nat.add_assoc. reflexivity.
          - rewrite EA, HA by lia. rewrite <- !Nat.add_assoc. reflexivity. }
        rewrite Z. apply fma_chain_ext; intros k Hk.
        -- rewrite EB2, HB by lia. replace (j0 + v + (TS - v + k)) with (j0 + TS + k) by lia. reflexivity.
        -- rewrite EA2, HA by lia. replace (j0 + v + (TS - v + k)) with (j0 + TS + k) by lia. reflexivity.
      * intros i j. unfold in_call. fold i0 j0. lia.
    + unfold reg_trmm_right_mn. rewrite cm_only_ok by auto.
      destruct (trmm_right_loop_ok SS HSS T O al (k_n c) (k_rm c * cc) (k_nn c) alpha b a m (reg0 T O) (fun k => k <? k_nn c)) as (r2 & E2 & P2); auto; try lia.
      { intros u v Hu' Hv. rewrite EB. apply Rb; lia. }
      { intros k j Hjk Hk. rewrite EA. apply Ra; lia. }
      rewrite E2. cbn [bind noexcept].
      assert (G : exists r3, (if k_nn c <? TS then Ok r2 else reg_gemm_mn SS T O al (k_n c) (k_rm c * cc) (N - j0 - TS) alpha b2 a2 (k_m c) (k_nn c) m r2) = Ok r3 /\
        forall u v, u < k_m c -> v < k_nn c -> reg_at r3 u v = trmmR_val N alpha (fun i k => m0 (addr B i k)) (fun k j => m0 (addr A k j)) (i0 + u) (j0 + v)).
      { destruct (Nat.ltb_spec (k_nn c) TS) as [Lt|Ge].
        - exists r2. split; auto. intros u v Hu' Hv. rewrite P2, R0 by lia. unfold trmmR_val.
          assert (EN : j0 + k_nn c = N).
          { destruct (tile_edges _ _ _ _ _ _ Hc) as [_ X]. fold j0 in X. lia. }
          replace (N - (j0 + v)) with (k_nn c - v) by lia.
          apply fma_chain_ext; intros k Hk.
          + rewrite EB, HB by lia. rewrite <- !Nat.add_assoc. reflexivity.
          + rewrite EA, HA by lia. rewrite <- !Nat.add_assoc. reflexivity.
        - destruct (reg_gemm_mn_ok al (k_n c) (k_rm c * cc) (N - j0 - TS) alpha b2 a2 (k_m c) (k_nn c) m r2) as (r3 & E3 & P3); auto; try lia.
          { intros u v Hu' Hv. rewrite EB2. apply Rb; lia. }
          { intros u v Hu' Hv. rewrite EA2. apply Ra; lia. }
          exists r3. split; auto. intros u v Hu' Hv. rewrite P3, P2, R0 by lia. unfold trmmR_val.
          assert (EN : k_nn c = TS) by lia. rewrite EN in *.
          replace (N - (j0 + v)) with ((TS - v) + (N - j0 - TS)) by lia. rewrite fma_chain_app.
          match goal with |- fma_chain O ?n ?x ?y ?z = fma_chain O ?n ?x' ?y' ?z' => assert (Z : z = z') end.
          { apply fma_chain_ext; intros k Hk.
            - rewrite EB, HB by lia. rewrite <- !Nat.add_assoc. reflexivity.
            - rewrite EA, HA by lia. rewrite <- !Nat.add_assoc. reflexivity. }
          rewrite Z. apply fma_chain_ext; intros k Hk.
          + rewrite EB2, HB by lia. replace (j0 + v + (TS - v + k)) with (j0 + TS + k) by lia. reflexivity.
          + rewrite EA2, HA by lia. replace (j0 + v + (TS - v + k)) with (j0 + TS + k) by lia. reflexivity. }
      destruct G as (r3 & E3 & P3). rewrite E3. cbn [bind].
      destruct (reg_store_mn_region SS HSS T al (k_n c) (k_rm c * cc) pc r3 WC Sc Stc (k_m c) (k_nn c)) as (W & E & R); try lia.
      { intros u v Hu' Hv. rewrite EC. apply Rc; lia. }
      destruct (region_writes T _ W _ _ _ E R) with (m := m) as (m' & Em & U).
      { intros i j i' j' [] [] X. rewrite !EC in X. apply Hd in X; lia. }
      exists m'. split; [exact Em|].
      apply (lift_block T (addr C) (addr pc) i0 j0 (fun i j => i < k_m c /\ j < k_nn c) (in_call c) _ (reg_at r3)); auto.
      * intros u v [Hu' Hv]. apply P3; auto.
      * intros i j. unfold in_call. fold i0 j0. lia.
Qed.
Lemma trmmR_ptr_ok : forall al M N alpha B A unit C m0,
  (unit = true -> M < TS \/ N < TS) ->
  mptr_wf SS B -> mp_so B = columnMajor -> lane_ok SS B -> mptr_wf SS A -> vmovable A ->
  mptr_wf SS C -> mp_so C = columnMajor -> store_ok C ->
  readable al B (nextMultiple M TS) N -> (forall k j, j <= k -> k < N -> al (addr A k j) = true) -> readable al C M N ->
  distinct M N (addr C) ->
  separate M N (addr C) M N (addr B) \/ (forall i k, i < M -> k < N -> addr B i k = addr C i k) -> separate M N (addr C) N N (addr A) ->
  exists m', trmmR_ptr SS cc T O al M N alpha B A Lower unit C m0 = Ok m' /\
    updated (block M N) (addr C)
      (trmmR_val N alpha (fun i k => m0 (addr B i k)) (fun k j => m0 (addr A k j))) m0 m'.
Proof.
  intros al M N alpha B A unit C m0 Hu Wb Sb Lb Wa Va Wc Sc Stc Rb Ra Rc Hd SB SA.
  unfold trmmR_ptr. rewrite Sb, Sc. cbn [order_eqb andb negb].
  pose proof (TS_pos SS HSS cc Hcc) as HT.
  destruct (tile_ok_disj_cover TS HT TS HT columnMajor M N) as (TA & TB & TC).
  apply (tiled_in_order call T _ _ in_call (block M N) (addr C)).
  - intros c i j Hc Hij. apply TA in Hc. unfold call_ok, in_call, block in *. lia.
  - intros i j [Hi Hj]. apply TC; auto.
  - intros i j i' j' [] [] X. apply Hd; auto.
  - eapply FOP_impl; [|exact TB]. intros c d X i j Y Z. apply (X i j); auto.
  - intros pre c post m El Hag.
    assert (Hc : In c (tile TS TS columnMajor M N)) by (rewrite El; apply in_or_app; right; left; reflexivity).
    assert (Pre : forall d i j, In d pre -> in_call d i j -> i < M /\ j < N).
    { intros d i j Hd' Hij. assert (Id : In d (tile TS TS columnMajor M N)) by (rewrite El; apply in_or_app; auto).
      apply TA in Id. unfold call_ok, in_call in *. lia. }
    pose proof (TA c Hc) as (_ & _ & _ & _ & K1 & K2 & K3 & K4 & _).
    apply (trmmR_call_ok al M); auto.
    + intros i k Hi Hk. apply Hag. intros d i' j' Hd' Hij X. destruct (Pre d i' j' Hd' Hij). symmetry in X. apply (SA i' j' i k); auto.
    + intros i k Hi Hk. apply Hag. intros d i' j' Hd' Hij X. destruct (Pre d i' j' Hd' Hij) as [P1 P2]. destruct SB as [SB|SB].
      * symmetry in X. apply (SB i' j' i k); auto; lia.
      * rewrite SB in X by lia. apply Hd in X; try lia. destruct X as [-> ->].
        refine (tile_behind TS TS columnMajor M N pre c post d i' j' HT HT El Hd' _ Hij). split; lia.
Qed.
End Trmm.
