(** Container_Proofs.v -- proofs about Container_Model.v *)
From Coq Require Import Arith Lia List Bool PeanoNat ZArith.
From Verif Require Import Base Base_Proofs Spec Layout_Model Layout_Proofs Simd_Model Simd_Proofs Scan_Proofs Potrf_Proofs Container_Model.
Import ListNotations.

Lemma updated_join : forall T (P Q : nat -> nat -> Prop) ad (e : nat -> nat -> T) m0 m1 m2,
  (forall i j, Q i j \/ ~ Q i j) ->
  (forall i j i' j', P i j -> Q i' j' -> ad i j = ad i' j' -> i = i' /\ j = j') ->
  updated P ad e m0 m1 -> updated Q ad e m1 m2 -> updated (fun i j => P i j \/ Q i j) ad e m0 m2.
Proof.
  intros T P Q ad e m0 m1 m2 Dec Inj [A1 A2] [B1 B2]. split.
  - intros i j H. destruct (Dec i j) as [q|q]; [apply B1; auto|]. destruct H as [H|H]; [|contradiction].
    rewrite B2; [apply A1; auto|]. intros i' j' H' X. destruct (Inj _ _ _ _ H H' X); subst. contradiction.
  - intros a H. rewrite B2 by (intros; apply H; auto). apply A2. intros; apply H; auto.
Qed.
Lemma updated_iff : forall T (P Q : nat -> nat -> Prop) ad (e : nat -> nat -> T) m0 m1,
  (forall i j, P i j <-> Q i j) -> updated P ad e m0 m1 -> updated Q ad e m0 m1.
Proof. intros T P Q ad e m0 m1 H [A B]. split; intros; [apply A|apply B; intros; apply H0]; firstorder. Qed.
Lemma updated_none : forall T (P : nat -> nat -> Prop) ad (e : nat -> nat -> T) m, (forall i j, ~ P i j) -> updated P ad e m m.
Proof. intros T P ad e m H. split; auto. intros i j X. destruct (H i j X). Qed.
Lemma updated_mupd : forall T ad (e : nat -> nat -> T) m i j, updated (fun i' j' => i' = i /\ j' = j) ad e m (mupd m (ad i j) (e i j)).
Proof.
  intros. split.
  - intros i' j' [-> ->]. apply mupd_eq.
  - intros a H. apply mupd_neq. apply H. auto.
Qed.

Section Container.
Variable SS : nat.
Hypothesis HSS : 0 < SS.
Variable T : Type.
Variable O : Ops T.

Lemma fill_n_ok : forall al p n (v : T) m, (forall k, k < n -> al (p + k) = true) ->
  exists m', fill_n T al p n v m = Ok m' /\ forall a, m' a = if (p <=? a) && (a <? p + n) then v else m a.
Proof.
  intros al p n v m Hal. unfold fill_n.
  destruct (for_inv (mem T) (fun k m' => forall a, m' a = if (p <=? a) && (a <? p + k) then v else m a) 0 n
    (fun k m => wr al m (p + k) v) m) as (m' & E & H); try lia.
  - intros a. destruct (Nat.leb_spec p a); destruct (Nat.ltb_spec a (p + 0)); cbn; auto; lia.
  - intros k m1 Hk H. rewrite wr_ok by (apply Hal; lia). eexists; split; eauto.
    intros a. unfold mupd. destruct (Nat.eqb_spec a (p + k)) as [->|N].
    + destruct (Nat.leb_spec p (p + k)); destruct (Nat.ltb_spec (p + k) (p + S k)); cbn; auto; lia.
    + rewrite H. destruct (Nat.leb_spec p a); destruct (Nat.ltb_spec a (p + k)); destruct (Nat.ltb_spec a (p + S k)); cbn; auto; lia.
  - exists m'. auto.
Qed.
Lemma fill_n_overrun : forall al p n (v : T) m k, k < n -> al (p + k) = false -> fill_n T al p n v m = UB.
Proof.
  intros al p n v m k Hk Hal. unfold fill_n, for_.
  assert (G : forall c lo (m : mem T), lo <= k < lo + c -> loop c lo (fun k m => wr al m (p + k) v) m = UB).
  { induction c as [|c IH]; intros lo m1 Hlo; [lia|]. cbn [loop]. unfold wr at 1.
    destruct (al (p + lo)) eqn:E; [|reflexivity]. cbn [bind]. apply IH.
    destruct (Nat.eq_dec lo k); subst; [congruence|lia]. }
  apply G. lia.
Qed.

Lemma c_alloc_index : forall c i j, i < c_rows c -> j < c_cols c -> c_alloc SS c (c_addr SS c i j) = true.
Proof.
  intros c i j Hi Hj. pose proof (c_index_bound SS HSS c i j Hi Hj). unfold c_alloc, c_addr.
  apply andb_true_intro. split; [apply Nat.leb_le|apply Nat.ltb_lt]; lia.
Qed.
Lemma c_addr_inj : forall c, distinct (c_rows c) (c_cols c) (c_addr SS c).
Proof. intros c i j i' j' Hi Hj Hi' Hj' E. apply (c_index_inj SS HSS c); auto. unfold c_addr in E. lia. Qed.
Lemma c_alloc_base : forall c k, k < c_capacity SS c -> c_alloc SS c (c_base c + k) = true.
Proof. intros. unfold c_alloc. apply andb_true_intro. split; [apply Nat.leb_le|apply Nat.ltb_lt]; lia. Qed.

Lemma c_fill_ok : forall al c (v : T) m, (forall a, c_alloc SS c a = true -> al a = true) ->
  exists m', c_fill SS T al c v m = Ok m' /\ updated (block (c_rows c) (c_cols c)) (c_addr SS c) (fun _ _ => v) m m'.
Proof.
  intros al c v m Hal. unfold c_fill.
  apply (scan2_ok T al (c_rows c) (c_cols c) (c_addr SS c) (fun i j m => c_set SS al c m i j v) (fun _ _ => v) m).
  - apply c_addr_inj.
  - intros i j m1 Hi Hj _. unfold c_set. apply wr_ok. apply Hal. apply c_alloc_index; auto.
Qed.

(** Initializer lists. *)
Lemma init_row_ok : forall al c r i j m, (forall a, c_alloc SS c a = true -> al a = true) ->
  i < c_rows c -> j + length r <= c_cols c ->
  exists m', init_row SS T al c i j r m = Ok m' /\
    updated (fun i' j' => i' = i /\ j <= j' < j + length r) (c_addr SS c) (fun _ j' => nth (j' - j) r (o0 O)) m m'.
Proof.
  intros al c r. induction r as [|x r IH]; intros i j m Hal Hi Hj; cbn [length init_row] in *.
  - exists m. split; auto. apply updated_none. intros; lia.
  - unfold c_set. rewrite wr_ok by (apply Hal, c_alloc_index; lia). cbn [bind].
    destruct (IH i (j + 1) (mupd m (c_addr SS c i j) x) Hal Hi ltac:(lia)) as (m' & E & U). exists m'. split; auto.
    eapply updated_iff; [|eapply updated_join with (P := fun i' j' => i' = i /\ j' = j) (Q := fun i' j' => i' = i /\ j + 1 <= j' < j + 1 + length r)].
    5:{ destruct U as [U1 U2]. split; [|exact U2]. intros i' j' Hij. cbn beta in *. rewrite (U1 i' j' Hij).
        replace (j' - j) with (Datatypes.S (j' - (j + 1))) by lia. reflexivity. }
    + intros i' j'. cbn beta. lia.
    + intros i' j'. lia.
    + intros i1 j1 i2 j2 [-> ->] [-> H2] X. apply c_addr_inj in X; lia.
    + pose proof (updated_mupd T (c_addr SS c) (fun (_ j' : nat) => nth (j' - j) (x :: r) (o0 O)) m i j) as X.
      cbn beta in X. rewrite Nat.sub_diag in X. exact X.
Qed.

Lemma init_rows_ok : forall al c l i m, (forall a, c_alloc SS c a = true -> al a = true) ->
  i + length l <= c_rows c -> (forall r, In r l -> length r <= c_cols c) ->
  exists m', init_rows SS T al c i l m = Ok m' /\
    updated (fun i' j' => i <= i' < i + length l /\ j' < length (nth (i' - i) l [])) (c_addr SS c)
      (fun i' j' => nth j' (nth (i' - i) l []) (o0 O)) m m'.
Proof.
  intros al c l. induction l as [|r l IH]; intros i m Hal Hi Hl; cbn [length init_rows] in *.
  - exists m. split; auto. apply updated_none. intros; lia.
  - destruct (init_row_ok al c r i 0 m Hal ltac:(lia) ltac:(specialize (Hl r (or_introl eq_refl)); lia)) as (m1 & E1 & U1).
    rewrite E1. cbn [bind]. destruct (IH (i + 1) m1 Hal ltac:(lia) ltac:(intros; apply Hl; right; auto)) as (m' & E & U).
    exists m'. split; auto.
    assert (NS : forall i', i + 1 <= i' -> nth (i' - i) (r :: l) [] = nth (i' - (i + 1)) l []).
    { intros i' H. replace (i' - i) with (Datatypes.S (i' - (i + 1))) by lia. reflexivity. }
    eapply updated_iff; [|eapply updated_join with (P := fun i' j' => i' = i /\ 0 <= j' < 0 + length r) (Q := fun i' j' => i + 1 <= i' < i + 1 + length l /\ j' < length (nth (i' - (i + 1)) l []))].
    5:{ destruct U as [A B]. split; [|exact B]. intros i' j' Hij. cbn beta in *. rewrite NS by lia. apply A; auto. }
    + intros i' j'. cbn beta. destruct (Nat.eq_dec i' i) as [->|Ni].
      * rewrite Nat.sub_diag. cbn [nth]. lia.
      * split; [intros [H|[H1 H2]]; [lia|]|intros [H1 H2]]; [split; [lia|]; rewrite NS by lia; auto|right].
        split; [lia|]. rewrite NS in H2 by lia. auto.
    + intros i' j'. destruct (Nat.le_gt_cases (i + 1) i'); destruct (Nat.lt_ge_cases i' (i + 1 + length l));
        destruct (Nat.lt_ge_cases j' (length (nth (i' - (i + 1)) l []))); lia.
    + intros i1 j1 i2 j2 [-> H1] [H2 H3] X.
      assert (length (nth (i2 - (i + 1)) l []) <= c_cols c).
      { apply Hl. right. apply nth_In. lia. }
      assert (length r <= c_cols c) by (apply Hl; left; auto).
      apply c_addr_inj in X; lia.
    + destruct U1 as [A B]. split; [|exact B]. intros i' j' Hij. cbn beta in *. rewrite (A i' j' Hij). destruct Hij as [-> _].
      rewrite Nat.sub_diag, Nat.sub_0_r. reflexivity.
Qed.

Lemma determineColumns_le : forall (l : list (list T)) n, determineColumns T l <= n <-> forall r, In r l -> length r <= n.
Proof.
  intros l n. unfold determineColumns.
  assert (G : forall l a, fold_left (fun a (r : list T) => max a (length r)) l a <= n <-> a <= n /\ forall r, In r l -> length r <= n).
  { clear l. induction l as [|r l IH]; intros a; cbn [fold_left].
    - split; [intros; split; auto; intros r []|tauto].
    - rewrite IH. split.
      + intros [H1 H2]. split; [lia|]. intros r' [<-|H]; [lia|auto].
      + intros [H1 H2]. split; [|intros; apply H2; right; auto]. specialize (H2 r (or_introl eq_refl)). lia. }
  rewrite G. split; [tauto|]. intros; split; auto; lia.
Qed.

(** Comparison *)
Lemma eq_row_spec : forall al (m : mem T) n j a b,
  (forall k, j <= k < j + n -> al (a k) = true /\ al (b k) = true) ->
  exists r, eq_row T O al m n j a b = Ok r /\ (r = true <-> forall k, j <= k < j + n -> oeqb O (m (a k)) (m (b k)) = true).
Proof.
  intros al m n. induction n as [|n IH]; intros j a b H; cbn [eq_row].
  - exists true. split; auto. split; auto. intros; lia.
  - destruct (H j ltac:(lia)) as [Ha Hb]. rewrite !rd_ok by auto. cbn [bind]. destruct (oeqb O (m (a j)) (m (b j))) eqn:E; cbn [negb].
    + destruct (IH (j + 1) a b) as (r & Er & Hr); [intros; apply H; lia|]. exists r. split; auto. rewrite Hr. split; intros X k Hk.
      * destruct (Nat.eq_dec k j); subst; auto. apply X; lia.
      * apply X; lia.
    + exists false. split; auto. split; [discriminate|]. intros X. rewrite X in E by lia. discriminate.
Qed.
Lemma eq_rows_spec : forall al (m : mem T) n N i a b,
  (forall k l, i <= k < i + n -> l < N -> al (a k l) = true /\ al (b k l) = true) ->
  exists r, eq_rows T O al m n N i a b = Ok r /\
    (r = true <-> forall k l, i <= k < i + n -> l < N -> oeqb O (m (a k l)) (m (b k l)) = true).
Proof.
  intros al m n N. induction n as [|n IH]; intros i a b H; cbn [eq_rows].
  - exists true. split; auto. split; auto. intros; lia.
  - destruct (eq_row_spec al m N 0 (a i) (b i)) as (r1 & E1 & H1); [intros; apply H; lia|]. rewrite E1. cbn [bind].
    destruct r1.
    + destruct (IH (i + 1) a b) as (r & Er & Hr); [intros; apply H; lia|]. exists r. split; auto. rewrite Hr. split; intros X k l Hk Hl.
      * destruct (Nat.eq_dec k i); subst; [apply (proj1 H1 eq_refl); lia|apply X; lia].
      * apply X; lia.
    + exists false. split; auto. split; [discriminate|]. intros X. apply H1. intros; apply X; lia.
Qed.

(* ------------------------------------------------------------------------------------------ *)
(** ** Assignments *)
Variables (al : alloc) (L R : view).
Definition ref_val (m0 : mem T) (i j : nat) : T := m0 (v_addr SS R i j).

Hypothesis Lb : c_base (v_cont L) mod SS = 0.
Hypothesis Rb : c_base (v_cont R) mod SS = 0.
Hypothesis Lw : v_i L + v_m R <= c_rows (v_cont L) /\ v_j L + v_n R <= c_cols (v_cont L).
Hypothesis Rw : v_i R + v_m R <= c_rows (v_cont R) /\ v_j R + v_n R <= c_cols (v_cont R).
Hypothesis La : forall a, c_alloc SS (v_cont L) a = true -> al a = true.
Hypothesis Ra : forall a, c_alloc SS (v_cont R) a = true -> al a = true.
Hypothesis Dis : forall a, c_alloc SS (v_cont L) a = true -> c_alloc SS (v_cont R) a = true -> False.

Lemma L_in : forall i j, i < v_m R -> j < v_n R -> c_alloc SS (v_cont L) (v_addr SS L i j) = true.
Proof. intros. unfold v_addr. apply c_alloc_index; lia. Qed.
Lemma R_in : forall i j, i < v_m R -> j < v_n R -> c_alloc SS (v_cont R) (v_addr SS R i j) = true.
Proof. intros. unfold v_addr. apply c_alloc_index; lia. Qed.
Lemma L_inj : distinct (v_m R) (v_n R) (v_addr SS L).
Proof. intros i j i' j' Hi Hj Hi' Hj' E. unfold v_addr in E. apply c_addr_inj in E; lia. Qed.
Lemma LR_sep : forall i j a, i < v_m R -> j < v_n R -> c_alloc SS (v_cont R) a = true -> a <> v_addr SS L i j.
Proof. intros i j a Hi Hj Ha ->. apply (Dis (v_addr SS L i j)); auto. apply L_in; auto. Qed.

(** Whatever has been written to L so far, R still has its original contents. *)
Lemma R_same : forall (P : nat -> nat -> Prop) m0 m a, (forall i j, P i j -> i < v_m R /\ j < v_n R) ->
  updated P (v_addr SS L) (ref_val m0) m0 m -> c_alloc SS (v_cont R) a = true -> m a = m0 a.
Proof. intros P m0 m a HP [_ U] Ha. apply U. intros i j Hij. destruct (HP i j Hij). apply LR_sep; auto. Qed.

Lemma copy_elements_ok : forall m0, exists m', copy_elements SS T al L R m0 = Ok m' /\
  updated (block (v_m R) (v_n R)) (v_addr SS L) (ref_val m0) m0 m'.
Proof.
  intros m0. unfold copy_elements.
  apply (scan2_ok T al (v_m R) (v_n R) (v_addr SS L) (fun i j m => x <- v_get SS al R m i j ;; v_set SS al L m i j x) (ref_val m0) m0).
  - apply L_inj.
  - intros i j m Hi Hj U. unfold v_get, v_set. rewrite rd_ok by (apply Ra, R_in; auto). cbn [bind].
    rewrite wr_ok by (apply La, L_in; auto). f_equal. f_equal. unfold ref_val.
    eapply R_same; eauto using R_in. cbn. intros i' j' [[]|[]]; split; lia.
Qed.

Section CM.
Hypothesis Lso : c_so (v_cont L) = columnMajor.
Hypothesis Rso : c_so (v_cont R) = columnMajor.
Hypothesis Li : v_i L mod SS = 0.
Hypothesis Ri : v_i R mod SS = 0.

Lemma R_ptr_wf : forall i, i mod SS = 0 -> mptr_wf SS (v_ptr SS true R i 0).
Proof.
  intros i Hi. apply v_ptr_wf; auto. intros _. rewrite Rso. split; auto.
  apply mod0_ex in Ri; apply mod0_ex in Hi; auto. destruct Ri as [a Ea], Hi as [b Eb]. apply (ex_mod0 _ SS (a + b)); auto. lia.
Qed.
Lemma L_ptr_wf : forall i, i mod SS = 0 -> mptr_wf SS (v_ptr SS true L i 0).
Proof.
  intros i Hi. apply v_ptr_wf; auto. intros _. rewrite Lso. split; auto.
  apply mod0_ex in Li; apply mod0_ex in Hi; auto. destruct Li as [a Ea], Hi as [b Eb]. apply (ex_mod0 _ SS (a + b)); auto. lia.
Qed.
Lemma R_ptr_addr : forall i k l, i mod SS = 0 -> addr SS (v_ptr SS true R i 0) k l = v_addr SS R (i + k) l.
Proof. intros i k l Hi. rewrite v_ptr_addr; auto. intros _ _. rewrite Rso. auto. Qed.
Lemma L_ptr_addr : forall i k l, i mod SS = 0 -> addr SS (v_ptr SS true L i 0) k l = v_addr SS L (i + k) l.
Proof. intros i k l Hi. rewrite v_ptr_addr; auto. intros _ _. rewrite Lso. auto. Qed.

(** the padding rows of a column-major container belong to its buffer *)
Lemma pad_in : forall v i j l, c_so (v_cont v) = columnMajor -> v_i v mod SS = 0 -> i mod SS = 0 -> l < SS ->
  v_i v + i < c_rows (v_cont v) -> v_j v + j < c_cols (v_cont v) ->
  c_alloc SS (v_cont v) (v_addr SS v (i + l) j) = true.
Proof.
  intros v i j l So Hv Hi Hl Hr Hc. unfold c_alloc, v_addr, c_addr.
  assert (B : c_index SS (v_cont v) (v_i v + (i + l)) (v_j v + j) < c_capacity SS (v_cont v)).
  { apply c_index_bound_pad; auto. rewrite So. split; auto.
    destruct (nextMultiple_spec (c_rows (v_cont v)) SS HSS) as (A1 & A2 & A3).
    apply mod0_ex in A2; auto. apply mod0_ex in Hv; auto. apply mod0_ex in Hi; auto.
    destruct A2 as [q Eq], Hv as [a Ea], Hi as [b Eb].
    assert (a + b < q) by (apply (proj2 (Nat.mul_lt_mono_pos_l SS (a + b) q HSS)); lia).
    assert (SS * (a + b + 1) <= SS * q) by (apply Nat.mul_le_mono_l; lia). lia. }
  apply andb_true_intro. split; [apply Nat.leb_le|apply Nat.ltb_lt]; lia.
Qed.

(** One vector load from R: the lanes are the elements of R's column (some may be padding). *)
Lemma load_lanes : forall (P : nat -> nat -> Prop) m0 m i j, (forall i j, P i j -> i < v_m R /\ j < v_n R) ->
  updated P (v_addr SS L) (ref_val m0) m0 m -> i mod SS = 0 -> i < v_m R -> j < v_n R ->
  exists x, mp_load SS T O al (poff SS (v_ptr SS true R i 0) 0 j) m = Ok x /\ forall l, l < SS -> x l = m0 (v_addr SS R (i + l) j).
Proof.
  intros P m0 m i j HP U Hi Hr Hj.
  assert (A : forall l, addr SS (poff SS (v_ptr SS true R i 0) 0 j) l 0 = v_addr SS R (i + l) j).
  { intros l. rewrite addr_poff; auto using R_ptr_wf.
    - rewrite R_ptr_addr by auto. f_equal. lia.
    - intros _ _. cbn [mp_so v_ptr]. rewrite Rso. apply Nat.mod_0_l. lia. }
  destruct (mp_load_cm SS HSS T O al (poff SS (v_ptr SS true R i 0) 0 j) m) as (x & E & Hx).
  - apply poff_wf_cm; auto using R_ptr_wf. apply Nat.mod_0_l. lia.
  - cbn. auto.
  - intros l Hl. rewrite A. apply Ra. apply pad_in; auto; lia.
  - exists x. split; auto. intros l Hl. rewrite Hx, A by auto. eapply R_same; eauto. apply pad_in; auto; lia.
Qed.

Definition done (i j i' j' : nat) : Prop := (i' < i /\ j' < v_n R) \/ (i <= i' < i + SS /\ i' < v_m R /\ j' < j).

(** One store of a column piece: rows i .. i + w - 1. *)
Lemma store_join : forall m0 m i j w (f : mem T -> res (mem T)) W,
  i mod SS = 0 -> w <= SS -> i + w <= v_m R -> (w < SS -> i + w = v_m R) -> j < v_n R ->
  updated (done i j) (v_addr SS L) (ref_val m0) m0 m ->
  effect f W -> region W (fun i' j' => j' = j /\ i' < w) (addr SS (v_ptr SS true L i 0)) (fun i' j' => ref_val m0 (i + i') j') ->
  exists m', f m = Ok m' /\ updated (done i (j + 1)) (v_addr SS L) (ref_val m0) m0 m'.
Proof.
  intros m0 m i j w f W Hi Hw Hr Hr2 Hj U Ef Re.
  destruct (region_result f W _ _ _ m Ef Re) as (m' & E & V1 & V2).
  { intros i1 j1 i2 j2 [-> H1] [-> H2] X. rewrite !L_ptr_addr in X by auto. apply L_inj in X; lia. }
  exists m'. split; auto.
  eapply updated_iff; [|eapply updated_join with (P := done i j) (Q := fun i' j' => j' = j /\ i <= i' < i + w)]; eauto.
  - intros i' j'. cbn beta. unfold done. lia.
  - intros i' j'. lia.
  - intros i1 j1 i2 j2 H1 H2 X. unfold done in H1. apply L_inj in X; lia.
  - split.
    + intros i' j' [-> H]. specialize (V1 (i' - i) j). rewrite L_ptr_addr in V1 by auto.
      replace (i + (i' - i)) with i' in V1 by lia. apply V1. lia.
    + intros a H. apply V2. intros i' j' [-> H']. rewrite L_ptr_addr by auto. apply H. lia.
Qed.

Lemma store_ok_L : forall i, store_ok (v_ptr SS true L i 0).
Proof. intros i _. reflexivity. Qed.

Lemma copy_panels_ok : forall m0, exists m', copy_panels SS T O al L R m0 = Ok m' /\
  updated (block (v_m R / SS * SS) (v_n R)) (v_addr SS L) (ref_val m0) m0 m'.
Proof.
  intros m0. unfold copy_panels.
  destruct (foldM_steps (mem T) (fun i m => i mod SS = 0 /\ i <= v_m R /\ updated (block i (v_n R)) (v_addr SS L) (ref_val m0) m0 m)
    (fun i m => for_ 0 (v_n R) (fun j m =>
      x <- mp_load SS T O al (poff SS (v_ptr SS true R i 0) 0 j) m ;;
      mp_store SS T al (poff SS (v_ptr SS true L i 0) 0 j) x m) m)
    (fun i => i + SS <=? v_m R) SS (v_m R + 1) 0 m0) as (m' & E & H).
  - split; [apply Nat.mod_0_l; lia|]. split; [lia|]. apply updated_none. unfold block. intros; lia.
  - intros i m (Hi & Hr & U) C. apply Nat.leb_le in C.
    destruct (for_inv (mem T) (fun j m => updated (done i j) (v_addr SS L) (ref_val m0) m0 m) 0 (v_n R)
      (fun j m => x <- mp_load SS T O al (poff SS (v_ptr SS true R i 0) 0 j) m ;;
                  mp_store SS T al (poff SS (v_ptr SS true L i 0) 0 j) x m) m) as (m' & E & U'); try lia.
    + eapply updated_iff; [|exact U]. intros i' j'. cbn beta. unfold block, done. lia.
    + intros j m1 Hj U1. destruct (load_lanes (done i j) m0 m1 i j) as (x & Ex & Hx); auto; try lia.
      { unfold done. intros; lia. }
      rewrite Ex. cbn [bind].
      destruct (mp_store_effect SS HSS T al (v_ptr SS true L i 0) 0 j x) as (W & Ef & Re); auto using L_ptr_wf, store_ok_L.
      { apply Nat.mod_0_l. lia. }
      { intros l Hl. rewrite L_ptr_addr by auto. apply La. apply L_in; lia. }
      specialize (Re (fun i' j' => ref_val m0 (i + i') j')).
      replace (Datatypes.S j) with (j + 1) by lia.
      apply (store_join m0 m1 i j SS _ W); auto; try lia.
      eapply region_iff; [|apply Re].
      * intros i' j'. cbn beta. lia.
      * intros l Hl. rewrite Hx by auto. reflexivity.
    + exists m'. split; auto. split.
      * apply mod0_ex in Hi; auto. destruct Hi as [q Eq]. apply (ex_mod0 _ SS (q + 1)); auto. lia.
      * split; [lia|]. eapply updated_iff; [|exact U']. intros i' j'. cbn beta. unfold block, done. lia.
  - exists m'. split; auto. destruct H as (H1 & H2 & H3).
    destruct (steps_spec (fun i => i <= v_m R /\ i mod SS = 0) (fun i => i + SS <=? v_m R) SS (v_m R + 1) 0 (v_m R)) as (S1 & _); auto.
    + split; [lia|apply Nat.mod_0_l; lia].
    + intros k [Hk1 Hk2] Hk. apply Nat.leb_le in Hk. split; [lia|].
      apply mod0_ex in Hk2; auto. destruct Hk2 as [q Eq]. apply (ex_mod0 _ SS (q + 1)); auto. lia.
    + intros k _ Hk. apply Nat.leb_le in Hk. lia.
    + lia.
    + set (i := snd (steps (v_m R + 1) (fun i => i + SS <=? v_m R) SS 0)) in *.
      apply Nat.leb_gt in S1. destruct (dm (v_m R) SS HSS) as [D1 D2]. apply mod0_ex in H1; auto. destruct H1 as [q Eq].
      replace (v_m R / SS * SS) with i; auto.
      assert (q = v_m R / SS) by nia. subst q. lia.
Qed.

Lemma assign_dense_panel_cm_ok : forall m0, exists m', assign_dense_panel SS T O al L R m0 = Ok m' /\
  updated (block (v_m R) (v_n R)) (v_addr SS L) (ref_val m0) m0 m'.
Proof.
  intros m0. unfold assign_dense_panel. rewrite Lso, Rso.
  destruct (copy_panels_ok m0) as (m1 & E1 & U1). rewrite E1. cbn [bind].
  destruct (dm (v_m R) SS HSS) as [D1 D2]. set (rem := v_m R mod SS) in *. set (i := v_m R - rem).
  assert (Ei : i = v_m R / SS * SS) by (unfold i; lia).
  assert (Hi : i mod SS = 0) by (rewrite Ei; apply Nat.mod_mul; lia).
  destruct (Nat.ltb_spec 0 rem) as [Hrem|Hrem].
  - destruct (for_inv (mem T) (fun j m => updated (done i j) (v_addr SS L) (ref_val m0) m0 m) 0 (v_n R)
      (fun j m => x <- mp_load SS T O al (poff SS (v_ptr SS true R i 0) 0 j) m ;;
                  mp_storem SS T al (poff SS (v_ptr SS true L i 0) 0 j) x (idx_lt (Z.of_nat rem)) m) m1) as (m' & E & U'); try lia.
    + eapply updated_iff; [|exact U1]. intros i' j'. cbn beta. unfold block, done. lia.
    + intros j m2 Hj U2. destruct (load_lanes (done i j) m0 m2 i j) as (x & Ex & Hx); auto; try lia.
      { unfold done. intros; lia. }
      rewrite Ex. cbn [bind].
      destruct (mp_storem_effect SS HSS T al (v_ptr SS true L i 0) 0 j x (idx_lt (Z.of_nat rem))) as (W & Ef & Re); auto using L_ptr_wf, store_ok_L.
      { apply Nat.mod_0_l. lia. }
      { intros l Hl Hm. unfold idx_lt in Hm. apply Z.ltb_lt in Hm. rewrite L_ptr_addr by auto. apply La. apply L_in; lia. }
      specialize (Re (fun i' j' => ref_val m0 (i + i') j')).
      replace (Datatypes.S j) with (j + 1) by lia.
      apply (store_join m0 m2 i j rem _ W); auto; try lia.
      eapply region_iff; [|apply Re].
      * intros i' j'. cbn beta. unfold idx_lt. rewrite Z.ltb_lt. lia.
      * intros l Hl _. rewrite Hx by auto. reflexivity.
    + exists m'. split; auto. eapply updated_iff; [|exact U']. intros i' j'. cbn beta. unfold block, done. lia.
  - exists m1. split; auto. eapply updated_iff; [|exact U1]. intros i' j'. unfold block. lia.
Qed.

Hypothesis Lk : c_kind (v_cont L) = Panel.
Hypothesis Rk : c_kind (v_cont R) = Dense.

Lemma R_lin : forall i j, v_addr SS R i j = v_data SS R + (i + c_spacing SS (v_cont R) * j).
Proof. intros. unfold v_addr, v_data, c_addr, c_index. rewrite Rk, Rso. lia. Qed.
Lemma L_lin : forall i i1 j, i mod SS = 0 -> i1 < SS -> v_addr SS L (i + i1) j = v_addr SS L i 0 + (i1 + SS * j).
Proof.
  intros i i1 j Hi H1. unfold v_addr, c_addr, c_index. rewrite Lk, Lso.
  apply mod0_ex in Hi; auto. destruct (mod0_ex _ _ HSS Li) as [a Ea]. destruct Hi as [b Eb].
  replace (v_i L + (i + i1)) with (SS * (a + b) + i1) by lia. replace (v_i L + i) with (SS * (a + b) + 0) by lia.
  rewrite !div_q, !mod_q by lia. lia.
Qed.

Lemma assign_panel_dense_cm_ok : forall m0, exists m', assign_panel_dense SS T O al L R m0 = Ok m' /\
  updated (block (v_m R) (v_n R)) (v_addr SS L) (ref_val m0) m0 m'.
Proof.
  intros m0. unfold assign_panel_dense. rewrite Lso, Rso.
  destruct (copy_panels_ok m0) as (m1 & E1 & U1). rewrite E1. cbn [bind].
  destruct (dm (v_m R) SS HSS) as [D1 D2]. set (rem := v_m R mod SS) in *. set (i := v_m R - rem).
  assert (Ei : i = v_m R / SS * SS) by (unfold i; lia). rewrite <- Ei in U1.
  assert (Hi : i mod SS = 0) by (rewrite Ei; apply Nat.mod_mul; lia).
  destruct (Nat.ltb_spec 0 rem) as [Hrem|Hrem].
  - destruct (scan2_ok T al (v_n R) rem (fun j i1 => v_addr SS L (i + i1) j)
      (fun j i1 m => x <- rd al m (v_data SS R + i + (i1 + c_spacing SS (v_cont R) * j)) ;;
                     wr al m (v_addr SS L i 0 + (i1 + SS * j)) x) (fun j i1 => ref_val m0 (i + i1) j) m1) as (m' & E & V1 & V2).
    + intros j i1 j' i1' Hj H1 Hj' H1' X. apply L_inj in X; lia.
    + intros j i1 m Hj H1 U.
      replace (v_data SS R + i + (i1 + c_spacing SS (v_cont R) * j)) with (v_addr SS R (i + i1) j) by (rewrite R_lin; lia).
      rewrite <- L_lin by (auto; lia). rewrite rd_ok by (apply Ra, R_in; lia). cbn [bind].
      rewrite wr_ok by (apply La, L_in; lia). f_equal. f_equal. unfold ref_val.
      destruct U as [_ U]. rewrite U.
      * eapply R_same; [|exact U1|]; [unfold block; intros; lia|apply R_in; lia].
      * intros j' i1' Hb. apply LR_sep; [destruct Hb; lia|destruct Hb; lia|apply R_in; lia].
    + exists m'. split; auto.
      eapply updated_iff; [|eapply updated_join with (P := block i (v_n R)) (Q := fun i' j' => i <= i' < v_m R /\ j' < v_n R)]; eauto.
      * intros i' j'. cbn beta. unfold block. lia.
      * intros i' j'. lia.
      * intros i1 j1 i2 j2 H1 H2 X. unfold block in H1. apply L_inj in X; lia.
      * split.
        -- intros i' j' H. specialize (V1 j' (i' - i)). cbn beta in V1. replace (i + (i' - i)) with i' in V1 by lia. apply V1.
           unfold block. lia.
        -- intros a H. apply V2. intros j' i1' [H1 H2]. apply H. lia.
  - exists m1. split; auto. eapply updated_iff; [|exact U1]. intros i' j'. unfold block. lia.
Qed.
End CM.

Section RM.
Hypothesis Lso : c_so (v_cont L) = columnMajor.
Hypothesis Rso : c_so (v_cont R) = rowMajor.
Hypothesis Lk : c_kind (v_cont L) = Panel.
Hypothesis Rk : c_kind (v_cont R) = Dense.
Lemma assign_panel_dense_rm_ok : forall m0, exists m', assign_panel_dense SS T O al L R m0 = Ok m' /\
  updated (block (v_m R) (v_n R)) (v_addr SS L) (ref_val m0) m0 m'.
Proof.
  intros m0. unfold assign_panel_dense. rewrite Lso, Rso.
  apply (scan2_ok T al (v_m R) (v_n R) (v_addr SS L)
    (fun i j m => x <- rd al m (v_data SS R + c_spacing SS (v_cont R) * i + j) ;; wr al m (v_addr SS L i 0 + SS * j) x) (ref_val m0) m0).
  - apply L_inj.
  - intros i j m Hi Hj U.
    replace (v_data SS R + c_spacing SS (v_cont R) * i + j) with (v_addr SS R i j)
      by (unfold v_addr, v_data, c_addr, c_index; rewrite Rk, Rso; lia).
    replace (v_addr SS L i 0 + SS * j) with (v_addr SS L i j) by (unfold v_addr, c_addr, c_index; rewrite Lk, Lso; lia).
    rewrite rd_ok by (apply Ra, R_in; lia). cbn [bind].
    rewrite wr_ok by (apply La, L_in; lia). f_equal. f_equal. unfold ref_val.
    eapply R_same; [|exact U|apply R_in; lia]. unfold before. intros; lia.
Qed.
End RM.
End Container.
