(** Tile_Proofs.v -- the calls issued by tile() partition the index space. *)
From Coq Require Import Arith Lia List Bool PeanoNat.
From Verif Require Import Base Base_Proofs Layout_Model Layout_Proofs Tile_Model.
Import ListNotations.

(** Cell (i,j) belongs to the tile of call c. *)
Definition in_call (c : call) (i j : nat) : Prop :=
  k_i c <= i < k_i c + k_m c /\ k_j c <= j < k_j c + k_nn c.
Definition disjoint_calls (c c' : call) : Prop := forall i j, in_call c i j -> in_call c' i j -> False.

Lemma FOP_app : forall A (R : A -> A -> Prop) l1 l2,
  ForallOrdPairs R l1 -> ForallOrdPairs R l2 -> (forall x y, In x l1 -> In y l2 -> R x y) ->
  ForallOrdPairs R (l1 ++ l2).
Proof.
  intros A R l1 l2 H1 H2 Hx. induction H1 as [|a l Ha Hl IH]; simpl; auto.
  constructor.
  - apply Forall_app. split; auto. apply Forall_forall. intros y Hy. apply Hx; simpl; auto.
  - apply IH. intros; apply Hx; simpl; auto.
Qed.

Lemma FOP_split : forall A (R : A -> A -> Prop) l pre a post,
  ForallOrdPairs R l -> l = pre ++ a :: post ->
  (forall x, In x pre -> R x a) /\ (forall y, In y post -> R a y).
Proof.
  intros A R l pre a post H. revert pre a post.
  induction H as [|b l Hb Hl IH]; intros pre a post E.
  - destruct pre; discriminate.
  - destruct pre as [|c pre]; simpl in E; injection E as E1 E2; subst.
    + split; [intros x []|]. intros y Hy. rewrite Forall_forall in Hb. auto.
    + destruct (IH pre a post eq_refl) as [I1 I2]. split; auto.
      intros x [<-|Hx]; auto. rewrite Forall_forall in Hb. apply Hb. apply in_or_app; simpl; auto.
Qed.

Lemma FOP_steps_map : forall B (R : B -> B -> Prop) (f : nat -> B) cond step fuel i,
  (forall x y, x + step <= y -> R (f x) (f y)) ->
  ForallOrdPairs R (map f (fst (steps fuel cond step i))).
Proof.
  intros B R f cond step fuel; induction fuel as [|fuel IH]; intros i H; simpl; [constructor|].
  destruct (cond i); simpl; [|constructor]. constructor; auto.
  apply Forall_forall. intros b Hb. apply in_map_iff in Hb. destruct Hb as (y & <- & Hy).
  apply H. eapply steps_in_ge; eauto.
Qed.

Lemma FOP_steps_concat : forall B (R : B -> B -> Prop) (f : nat -> list B) cond step fuel i,
  (forall x, In x (fst (steps fuel cond step i)) -> ForallOrdPairs R (f x)) ->
  (forall x y u v, x + step <= y -> In u (f x) -> In v (f y) ->
     In x (fst (steps fuel cond step i)) -> In y (fst (steps fuel cond step i)) -> R u v) ->
  ForallOrdPairs R (concat (map f (fst (steps fuel cond step i)))).
Proof.
  intros B R f cond step fuel; induction fuel as [|fuel IH]; intros i H1 H2; simpl; [constructor|].
  simpl in H1, H2. destruct (cond i); simpl in *; [|constructor].
  apply FOP_app.
  - apply H1; auto.
  - apply IH; auto. intros x y u v Hxy Hu Hv Hx Hy. apply (H2 x y u v); auto.
  - intros u v Hu Hv. apply in_concat in Hv. destruct Hv as (l & Hl & Hv).
    apply in_map_iff in Hl. destruct Hl as (y & <- & Hy).
    apply (H2 i y u v); auto. eapply steps_in_ge; eauto.
Qed.

Section Tile.
Variable SS : nat.
Hypothesis HSS : 0 < SS.
Variable STEP : nat.
Hypothesis HST : 0 < STEP.

(** What every call of tile() satisfies. *)
Definition call_ok (m n : nat) (c : call) : Prop :=
  1 <= k_rm c <= 3 /\ k_n c = STEP /\
  (exists q, k_i c = SS * q) /\ (exists q, k_j c = STEP * q) /\
  1 <= k_m c <= k_rm c * SS /\ 1 <= k_nn c <= k_n c /\
  k_i c + k_m c <= m /\ k_j c + k_nn c <= n /\
  (k_full c = true <-> k_m c = k_rm c * SS /\ k_nn c = k_n c) /\
  (exists q, k_i c + k_rm c * SS = SS * q) /\ k_i c + k_rm c * SS < m + SS.

(** *** Columns of calls (column-major traversal) *)
Section Column.
Variable full : bool.
Variables m n j cols : nat.
Hypothesis Hc : 1 <= cols <= STEP.
Hypothesis Hfull : full = true <-> cols = STEP.
Hypothesis Hjn : j + cols <= n.
Hypothesis Hj : exists q, j = STEP * q.

Let r3 := steps (m + 1) (fun i => (i + 3 * SS <=? m) && negb (i + 4 * SS =? m)) (3 * SS) 0.
Let r2 := steps (m + 1) (fun i => i + 2 * SS <=? m) (2 * SS) (snd r3).
Let r1 := steps (m + 1) (fun i => i + 1 * SS <=? m) (1 * SS) (snd r2).

Lemma col_mult : (exists a, snd r3 = SS * a) /\ (exists a, snd r2 = SS * a) /\ (exists a, snd r1 = SS * a).
Proof.
  assert (A3 : exists a, snd r3 = SS * a)
    by (apply steps_final_mult; [exists 0; lia | exists 3; lia]).
  assert (A2 : exists a, snd r2 = SS * a)
    by (apply steps_final_mult; [exact A3 | exists 2; lia]).
  repeat split; auto. apply steps_final_mult; [exact A2 | exists 1; lia].
Qed.

Lemma col_final : snd r1 <= m /\ m < snd r1 + SS /\ snd r3 <= snd r2 /\ snd r2 <= snd r1.
Proof.
  pose proof (steps_spec (fun i => i <= m) (fun i => (i + 3 * SS <=? m) && negb (i + 4 * SS =? m)) (3 * SS) (m + 1) 0 m
     ltac:(lia) (Nat.le_0_l m)) as S3. cbv zeta in S3. fold r3 in S3.
  destruct S3 as (_ & A3 & _ & _).
  { intros k Hk C. apply andb_prop in C. destruct C as [C _]. apply Nat.leb_le in C. lia. }
  { intros k Hk C. apply andb_prop in C. destruct C as [C _]. apply Nat.leb_le in C. lia. }
  { lia. }
  pose proof (steps_spec (fun i => i <= m) (fun i => i + 2 * SS <=? m) (2 * SS) (m + 1) (snd r3) m
     ltac:(lia) A3) as S2. cbv zeta in S2. fold r2 in S2.
  destruct S2 as (_ & A2 & B2 & _).
  { intros k Hk C. apply Nat.leb_le in C. lia. }
  { intros k Hk C. apply Nat.leb_le in C. lia. }
  { lia. }
  pose proof (steps_spec (fun i => i <= m) (fun i => i + 1 * SS <=? m) (1 * SS) (m + 1) (snd r2) m
     ltac:(lia) A2) as S1. cbv zeta in S1. fold r1 in S1.
  destruct S1 as (C1 & A1 & B1 & _).
  { intros k Hk C. apply Nat.leb_le in C. lia. }
  { intros k Hk C. apply Nat.leb_le in C. lia. }
  { lia. }
  apply Nat.leb_gt in C1. lia.
Qed.

Lemma col_in3 : forall i, In i (fst r3) -> i + 3 * SS <= m /\ i + 3 * SS <= snd r3 /\ exists q, i = SS * q.
Proof.
  intros i H. split; [|split].
  - apply steps_in_cond in H. apply andb_prop in H. destruct H as [H _]. apply Nat.leb_le in H. exact H.
  - apply steps_in_le in H. exact H.
  - eapply steps_mult; [exact H | exists 0; lia | exists 3; lia].
Qed.
Lemma col_in2 : forall i, In i (fst r2) -> i + 2 * SS <= m /\ snd r3 <= i /\ i + 2 * SS <= snd r2 /\ exists q, i = SS * q.
Proof.
  intros i H. split; [|split; [|split]].
  - apply steps_in_cond in H. apply Nat.leb_le in H. exact H.
  - apply steps_in_ge in H. exact H.
  - apply steps_in_le in H. exact H.
  - eapply steps_mult; [exact H | apply col_mult | exists 2; lia].
Qed.
Lemma col_in1 : forall i, In i (fst r1) -> i + 1 * SS <= m /\ snd r2 <= i /\ i + 1 * SS <= snd r1 /\ exists q, i = SS * q.
Proof.
  intros i H. split; [|split; [|split]].
  - apply steps_in_cond in H. apply Nat.leb_le in H. exact H.
  - apply steps_in_ge in H. exact H.
  - apply steps_in_le in H. exact H.
  - eapply steps_mult; [exact H | apply col_mult | exists 1; lia].
Qed.

Lemma col_in : forall c, In c (tile_column SS STEP full m j cols) ->
  (exists i, In i (fst r3) /\ c = Call 3 STEP i j (3 * SS) cols full) \/
  (exists i, In i (fst r2) /\ c = Call 2 STEP i j (2 * SS) cols full) \/
  (exists i, In i (fst r1) /\ c = Call 1 STEP i j (1 * SS) cols full) \/
  (snd r1 < m /\ c = Call 1 STEP (snd r1) j (m - snd r1) cols false).
Proof.
  intros c H. unfold tile_column in H. fold r3 in H. fold r2 in H. fold r1 in H.
  apply in_app_or in H. destruct H as [H|H].
  { left. apply in_map_iff in H. destruct H as (i & <- & Hi). eauto. }
  apply in_app_or in H. destruct H as [H|H].
  { right; left. apply in_map_iff in H. destruct H as (i & <- & Hi). eauto. }
  apply in_app_or in H. destruct H as [H|H].
  { right; right; left. apply in_map_iff in H. destruct H as (i & <- & Hi). eauto. }
  destruct (Nat.ltb_spec (snd r1) m); [|contradiction].
  destruct H as [<-|[]]. right; right; right. auto.
Qed.

Lemma col_ok : forall c, In c (tile_column SS STEP full m j cols) ->
  call_ok m n c /\ k_j c = j /\ k_nn c = cols.
Proof.
  intros c H. apply col_in in H. idtac.
  destruct H as [(i & Hi & ->)|[(i & Hi & ->)|[(i & Hi & ->)|[Hlt ->]]]]; unfold call_ok; cbn [k_rm k_n k_i k_j k_m k_nn k_full].
  - apply col_in3 in Hi. destruct Hi as (A & B & q & E).
    repeat split; try lia; eauto; try (apply Hfull; auto); try (apply Hfull; tauto); try tauto. exists (q + 3). lia.
  - apply col_in2 in Hi. destruct Hi as (A & B & C & q & E).
    repeat split; try lia; eauto; try (apply Hfull; auto); try (apply Hfull; tauto); try tauto. exists (q + 2). lia.
  - apply col_in1 in Hi. destruct Hi as (A & B & C & q & E).
    repeat split; try lia; eauto; try (apply Hfull; auto); try (apply Hfull; tauto); try tauto. exists (q + 1). lia.
  - pose proof col_final as (A & B & C & D). destruct col_mult as (_ & _ & q & E).
    repeat split; try lia; eauto; try discriminate. exists (q + 1). lia.
Qed.

Lemma col_disj : ForallOrdPairs disjoint_calls (tile_column SS STEP full m j cols).
Proof.
  unfold tile_column. fold r3. fold r2. fold r1.
  pose proof col_final as (F1 & F2 & F3 & F4).
  repeat apply FOP_app.
  - apply FOP_steps_map. intros x y Hxy a b [H1 _] [H2 _]. cbn [k_i k_m] in *. lia.
  - apply FOP_steps_map. intros x y Hxy a b [H1 _] [H2 _]. cbn [k_i k_m] in *. lia.
  - apply FOP_steps_map. intros x y Hxy a b [H1 _] [H2 _]. cbn [k_i k_m] in *. lia.
  - destruct (snd r1 <? m); constructor; auto. constructor.
  - intros x y Hx Hy a b [H1 _] [H2 _].
    apply in_map_iff in Hx. destruct Hx as (i & <- & Hi). apply col_in1 in Hi.
    destruct (Nat.ltb_spec (snd r1) m); [|contradiction]. destruct Hy as [<-|[]]. cbn [k_i k_m] in *. lia.
  - intros x y Hx Hy a b [H1 _] [H2 _].
    apply in_map_iff in Hx. destruct Hx as (i & <- & Hi). apply col_in2 in Hi.
    apply in_app_or in Hy. destruct Hy as [Hy|Hy].
    + apply in_map_iff in Hy. destruct Hy as (i' & <- & Hi'). apply col_in1 in Hi'. cbn [k_i k_m] in *. lia.
    + destruct (Nat.ltb_spec (snd r1) m); [|contradiction]. destruct Hy as [<-|[]]. cbn [k_i k_m] in *. lia.
  - intros x y Hx Hy a b [H1 _] [H2 _].
    apply in_map_iff in Hx. destruct Hx as (i & <- & Hi). apply col_in3 in Hi.
    apply in_app_or in Hy. destruct Hy as [Hy|Hy].
    + apply in_map_iff in Hy. destruct Hy as (i' & <- & Hi'). apply col_in2 in Hi'. cbn [k_i k_m] in *. lia.
    + apply in_app_or in Hy. destruct Hy as [Hy|Hy].
      * apply in_map_iff in Hy. destruct Hy as (i' & <- & Hi'). apply col_in1 in Hi'. cbn [k_i k_m] in *. lia.
      * destruct (Nat.ltb_spec (snd r1) m); [|contradiction]. destruct Hy as [<-|[]]. cbn [k_i k_m] in *. lia.
Qed.

Lemma col_cover : forall x y, x < m -> j <= y < j + cols ->
  exists c, In c (tile_column SS STEP full m j cols) /\ in_call c x y.
Proof.
  intros x y Hx Hy. unfold tile_column. fold r3. fold r2. fold r1.
  pose proof col_final as (F1 & F2 & F3 & F4).
  destruct (Nat.lt_ge_cases x (snd r3)) as [L3|L3].
  { destruct (steps_cover (fun i => (i + 3 * SS <=? m) && negb (i + 4 * SS =? m)) (3 * SS) (m + 1) 0 x ltac:(lia)) as (k & Hk & Hk2).
    { fold r3. lia. }
    exists (Call 3 STEP k j (3 * SS) cols full). split.
    - apply in_or_app. left. apply in_map_iff. eauto.
    - unfold in_call; cbn. lia. }
  destruct (Nat.lt_ge_cases x (snd r2)) as [L2|L2].
  { destruct (steps_cover (fun i => i + 2 * SS <=? m) (2 * SS) (m + 1) (snd r3) x ltac:(lia)) as (k & Hk & Hk2).
    { fold r2. lia. }
    exists (Call 2 STEP k j (2 * SS) cols full). split.
    - apply in_or_app. right. apply in_or_app. left. apply in_map_iff. eauto.
    - unfold in_call; cbn. lia. }
  destruct (Nat.lt_ge_cases x (snd r1)) as [L1|L1].
  { destruct (steps_cover (fun i => i + 1 * SS <=? m) (1 * SS) (m + 1) (snd r2) x ltac:(lia)) as (k & Hk & Hk2).
    { fold r1. lia. }
    exists (Call 1 STEP k j (1 * SS) cols full). split.
    - apply in_or_app. right. apply in_or_app. right. apply in_or_app. left. apply in_map_iff. eauto.
    - unfold in_call; cbn. lia. }
  exists (Call 1 STEP (snd r1) j (m - snd r1) cols false). split.
  - do 3 (apply in_or_app; right). destruct (Nat.ltb_spec (snd r1) m); [left; auto|lia].
  - unfold in_call; cbn. lia.
Qed.
End Column.

(** *** Rows of calls (row-major traversal) *)
Section RowN.
Variable n : nat.
Let rj := steps (n + 1) (fun j => j + STEP <=? n) STEP 0.

Lemma row_final : snd rj <= n /\ n < snd rj + STEP /\ exists q, snd rj = STEP * q.
Proof.
  pose proof (steps_spec (fun j => j <= n) (fun j => j + STEP <=? n) STEP (n + 1) 0 n
     ltac:(lia) (Nat.le_0_l n)) as S3. cbv zeta in S3. fold rj in S3.
  destruct S3 as (C & A & _ & _).
  { intros k Hk C. apply Nat.leb_le in C. lia. }
  { intros k Hk C. apply Nat.leb_le in C. lia. }
  { lia. }
  apply Nat.leb_gt in C. repeat split; auto. apply steps_final_mult; [exists 0; lia | exists 1; lia].
Qed.

Lemma row_inj : forall j, In j (fst rj) -> j + STEP <= n /\ j + STEP <= snd rj /\ exists q, j = STEP * q.
Proof.
  intros j H. split; [|split].
  - apply steps_in_cond in H. apply Nat.leb_le in H. exact H.
  - apply steps_in_le in H. exact H.
  - eapply steps_mult; [exact H | exists 0; lia | exists 1; lia].
Qed.

End RowN.

Section Row.
Variables RM m n i : nat.
Hypothesis HRM : 1 <= RM <= 3.
Hypothesis Hi : exists q, i = SS * q.
Hypothesis Him : i + RM * SS < m + SS.

Let rj := steps (n + 1) (fun j => j + STEP <=? n) STEP 0.

(** number of rows of the calls *)
Let rows := if i + RM * SS <=? m then RM * SS else m - i.

Lemma row_in : forall c, In c (tile_backend SS RM STEP m n i) ->
  k_rm c = RM /\ k_n c = STEP /\ k_i c = i /\ k_m c = rows /\
  ((In (k_j c) (fst rj) /\ k_nn c = STEP) \/ (k_j c = snd rj /\ snd rj < n /\ k_nn c = n - snd rj)) /\
  (k_full c = true <-> k_m c = RM * SS /\ k_nn c = STEP).
Proof.
  pose proof (row_final n) as (F1 & F2 & _). fold rj in F1, F2.
  intros c H. unfold tile_backend in H. fold rj in H. unfold rows. clear rows.
  destruct (Nat.leb_spec (i + RM * SS) m); apply in_app_or in H; destruct H as [H|H].
  - apply in_map_iff in H. destruct H as (j & <- & Hj). cbn. repeat split; auto.
  - destruct (Nat.ltb_spec (snd rj) n); [|contradiction]. destruct H as [<-|[]]. cbn.
    repeat split; auto; try discriminate; lia.
  - apply in_map_iff in H. destruct H as (j & <- & Hj). cbn. repeat split; auto; try discriminate; lia.
  - destruct (Nat.ltb_spec (snd rj) n); [|contradiction]. destruct H as [<-|[]]. cbn.
    repeat split; auto; try discriminate; lia.
Qed.

Lemma row_rows : 1 <= rows <= RM * SS /\ i + rows <= m /\ (i + RM * SS <= m \/ i + rows = m).
Proof. unfold rows. destruct (Nat.leb_spec (i + RM * SS) m); nia. Qed.

Lemma row_ok : forall c, In c (tile_backend SS RM STEP m n i) ->
  call_ok m n c /\ k_i c = i /\ k_m c = rows.
Proof.
  intros c H. apply row_in in H. destruct H as (A & B & C & D & E & F).
  pose proof row_rows as (R1 & R2 & R3). destruct Hi as [q Hq].
  unfold call_ok. rewrite A, B, C, D in *.
  assert (G : (exists q, k_j c = STEP * q) /\ 1 <= k_nn c <= STEP /\ k_j c + k_nn c <= n).
  { clearbody rows. destruct E as [[E1 E2]|(E1 & E2 & E3)].
    - apply (row_inj n) in E1. fold rj in E1. clearbody rj. repeat split; try tauto; lia.
    - pose proof (row_final n) as RF. fold rj in RF. clearbody rj. rewrite E1. repeat split; try tauto; lia. }
  destruct G as (G1 & G2 & G3).
  repeat split; auto; try lia; eauto; try (apply F; auto). exists (q + RM). lia.
Qed.

Lemma row_disj : ForallOrdPairs disjoint_calls (tile_backend SS RM STEP m n i).
Proof.
  unfold tile_backend. fold rj.
  assert (G : forall f, (forall j, k_j (f j) = j /\ k_nn (f j) = STEP) -> forall c, k_j c = snd rj ->
     ForallOrdPairs disjoint_calls (map f (fst rj) ++ (if snd rj <? n then [c] else []))).
  { intros f Hf c Hc. apply FOP_app.
    - apply FOP_steps_map. intros x y Hxy a b [_ H1] [_ H2].
      destruct (Hf x), (Hf y). lia.
    - destruct (snd rj <? n); constructor; auto. constructor.
    - intros u v Hu Hv a b [_ H1] [_ H2]. apply in_map_iff in Hu. destruct Hu as (x & <- & Hx).
      apply (row_inj n) in Hx. fold rj in Hx. destruct (Hf x). destruct (snd rj <? n); [|contradiction].
      destruct Hv as [<-|[]]. lia. }
  destruct (i + RM * SS <=? m); apply G; cbn; auto.
Qed.

Lemma row_cover : forall x y, i <= x < i + rows -> y < n ->
  exists c, In c (tile_backend SS RM STEP m n i) /\ in_call c x y.
Proof.
  intros x y Hx Hy. pose proof (row_final n) as (F1 & F2 & _). fold rj in F1, F2.
  assert (G : exists c, In c (map (fun j => Call RM STEP i j rows STEP true) (fst rj) ++
     (if snd rj <? n then [Call RM STEP i (snd rj) rows (n - snd rj) false] else [])) /\ in_call c x y).
  { destruct (Nat.lt_ge_cases y (snd rj)) as [L|L].
    - destruct (steps_cover (fun j => j + STEP <=? n) STEP (n + 1) 0 y) as (k & Hk & Hk2).
      { lia. } { fold rj. lia. }
      exists (Call RM STEP i k rows STEP true). split.
      + apply in_or_app. left. apply in_map_iff. eauto.
      + unfold in_call; cbn [k_i k_m k_j k_nn]. lia.
    - exists (Call RM STEP i (snd rj) rows (n - snd rj) false). split.
      + apply in_or_app. right. destruct (Nat.ltb_spec (snd rj) n); [left; auto|lia].
      + unfold in_call; cbn [k_i k_m k_j k_nn]. lia. }
  unfold tile_backend. fold rj. unfold rows in *. destruct (i + RM * SS <=? m); auto.
  destruct G as (c & Hc & Hin). apply in_app_or in Hc. destruct Hc as [Hc|Hc].
  - apply in_map_iff in Hc. destruct Hc as (k & <- & Hk).
    exists (Call RM STEP i k (m - i) STEP false). split; auto.
    apply in_or_app. left. apply in_map_iff. eauto.
  - exists c. split; auto. apply in_or_app. right. auto.
Qed.
End Row.

(** *** The whole sequence *)
Lemma tile_ok_disj_cover : forall tr m n,
  (forall c, In c (tile SS STEP tr m n) -> call_ok m n c) /\
  ForallOrdPairs disjoint_calls (tile SS STEP tr m n) /\
  (forall x y, x < m -> y < n -> exists c, In c (tile SS STEP tr m n) /\ in_call c x y).
Proof.
  intros tr m n. destruct tr.
  - (* rowMajor traversal *)
    set (c3 := fun i => (i + 2 * SS <? m) && negb (i + 4 * SS =? m)).
    set (c2 := fun i => i + 1 * SS <? m). set (c1 := fun i => i + 0 * SS <? m).
    set (r3 := steps (m + 1) c3 (3 * SS) 0).
    set (r2 := steps (m + 1) c2 (2 * SS) (snd r3)).
    set (r1 := steps (m + 1) c1 (1 * SS) (snd r2)).
    assert (E3 : exists a, snd r3 = SS * a) by (apply steps_final_mult; [exists 0; lia | exists 3; lia]).
    assert (E2 : exists a, snd r2 = SS * a) by (apply steps_final_mult; [exact E3 | exists 2; lia]).
    assert (I3 : forall i, In i (fst r3) -> i + 2 * SS < m /\ i + 3 * SS <= snd r3 /\ exists q, i = SS * q).
    { intros i H. repeat split.
      - apply steps_in_cond in H. apply andb_prop in H. destruct H as [H _]. apply Nat.ltb_lt in H. exact H.
      - apply steps_in_le in H. exact H.
      - eapply steps_mult; [exact H | exists 0; lia | exists 3; lia]. }
    assert (I2 : forall i, In i (fst r2) -> i + 1 * SS < m /\ snd r3 <= i /\ i + 2 * SS <= snd r2 /\ exists q, i = SS * q).
    { intros i H. repeat split.
      - apply steps_in_cond in H. apply Nat.ltb_lt in H. exact H.
      - apply steps_in_ge in H. exact H.
      - apply steps_in_le in H. exact H.
      - eapply steps_mult; [exact H | exact E3 | exists 2; lia]. }
    assert (I1 : forall i, In i (fst r1) -> i + 0 * SS < m /\ snd r2 <= i /\ i + 1 * SS <= snd r1 /\ exists q, i = SS * q).
    { intros i H. repeat split.
      - apply steps_in_cond in H. apply Nat.ltb_lt in H. exact H.
      - apply steps_in_ge in H. exact H.
      - apply steps_in_le in H. exact H.
      - eapply steps_mult; [exact H | exact E2 | exists 1; lia]. }
    assert (F : m <= snd r1 /\ snd r3 <= snd r2 /\ snd r2 <= snd r1).
    { pose proof (steps_ge c2 (2 * SS) (m + 1) (snd r3)). fold r2 in H.
      pose proof (steps_ge c1 (1 * SS) (m + 1) (snd r2)). fold r1 in H0.
      pose proof (steps_spec (fun _ => True) c1 (1 * SS) (m + 1) (snd r2) m ltac:(lia) I) as S1.
      cbv zeta in S1. fold r1 in S1. destruct S1 as (C1 & _).
      { auto. } { intros k _ C. apply Nat.ltb_lt in C. lia. } { lia. }
      unfold c1 in C1. apply Nat.ltb_ge in C1. lia. }
    unfold tile. fold c3. fold r3. fold c2. fold r2. fold c1. fold r1.
    assert (INV : forall c, In c (concat (map (fun i => tile_backend SS 3 STEP m n i) (fst r3)) ++
        concat (map (fun i => tile_backend SS 2 STEP m n i) (fst r2)) ++
        concat (map (fun i => tile_backend SS 1 STEP m n i) (fst r1))) ->
        (exists i, In i (fst r3) /\ In c (tile_backend SS 3 STEP m n i)) \/
        (exists i, In i (fst r2) /\ In c (tile_backend SS 2 STEP m n i)) \/
        (exists i, In i (fst r1) /\ In c (tile_backend SS 1 STEP m n i))).
    { intros c H. apply in_app_or in H. destruct H as [H|H].
      - left. apply in_concat in H. destruct H as (l & Hl & H). apply in_map_iff in Hl.
        destruct Hl as (i & <- & Hi). eauto.
      - apply in_app_or in H. destruct H as [H|H].
        + right; left. apply in_concat in H. destruct H as (l & Hl & H). apply in_map_iff in Hl.
          destruct Hl as (i & <- & Hi). eauto.
        + right; right. apply in_concat in H. destruct H as (l & Hl & H). apply in_map_iff in Hl.
          destruct Hl as (i & <- & Hi). eauto. }
    assert (B3 : forall i c, In i (fst r3) -> In c (tile_backend SS 3 STEP m n i) ->
        call_ok m n c /\ k_i c = i /\ k_m c = (if i + 3 * SS <=? m then 3 * SS else m - i)).
    { intros i c Hi Hc. apply I3 in Hi. destruct Hi as (A & B & q & E). subst i. apply row_ok; eauto; lia. }
    assert (B2 : forall i c, In i (fst r2) -> In c (tile_backend SS 2 STEP m n i) ->
        call_ok m n c /\ k_i c = i /\ k_m c = (if i + 2 * SS <=? m then 2 * SS else m - i)).
    { intros i c Hi Hc. apply I2 in Hi. destruct Hi as (A & B & C & q & E). subst i. apply row_ok; eauto; lia. }
    assert (B1 : forall i c, In i (fst r1) -> In c (tile_backend SS 1 STEP m n i) ->
        call_ok m n c /\ k_i c = i /\ k_m c = (if i + 1 * SS <=? m then 1 * SS else m - i)).
    { intros i c Hi Hc. apply I1 in Hi. destruct Hi as (A & B & C & q & E). subst i. apply row_ok; eauto; lia. }
    split; [|split].
    + intros c H. apply INV in H. destruct H as [(i & Hi & H)|[(i & Hi & H)|(i & Hi & H)]].
      * apply B3 in H; tauto. * apply B2 in H; tauto. * apply B1 in H; tauto.
    + apply FOP_app; [|apply FOP_app|].
      * apply FOP_steps_concat.
        { intros i Hi. apply I3 in Hi. destruct Hi as (A & B & q & E). subst i. apply row_disj; eauto; lia. }
        { intros x y u v Hxy Hu Hv Hx Hy a b [H1 _] [H2 _].
          apply B3 in Hu; auto. apply B3 in Hv; auto. destruct Hu as (_ & U1 & U2), Hv as (_ & V1 & V2).
          rewrite U1, U2 in H1. rewrite V1, V2 in H2.
          destruct (Nat.leb_spec (x + 3 * SS) m), (Nat.leb_spec (y + 3 * SS) m); lia. }
      * apply FOP_steps_concat.
        { intros i Hi. apply I2 in Hi. destruct Hi as (A & B & C & q & E). subst i. apply row_disj; eauto; lia. }
        { intros x y u v Hxy Hu Hv Hx Hy a b [H1 _] [H2 _].
          apply B2 in Hu; auto. apply B2 in Hv; auto. destruct Hu as (_ & U1 & U2), Hv as (_ & V1 & V2).
          rewrite U1, U2 in H1. rewrite V1, V2 in H2.
          destruct (Nat.leb_spec (x + 2 * SS) m), (Nat.leb_spec (y + 2 * SS) m); lia. }
      * apply FOP_steps_concat.
        { intros i Hi. apply I1 in Hi. destruct Hi as (A & B & C & q & E). subst i. apply row_disj; eauto; lia. }
        { intros x y u v Hxy Hu Hv Hx Hy a b [H1 _] [H2 _].
          apply B1 in Hu; auto. apply B1 in Hv; auto. destruct Hu as (_ & U1 & U2), Hv as (_ & V1 & V2).
          rewrite U1, U2 in H1. rewrite V1, V2 in H2.
          destruct (Nat.leb_spec (x + 1 * SS) m), (Nat.leb_spec (y + 1 * SS) m); lia. }
      * intros u v Hu Hv a b [H1 _] [H2 _].
        apply in_concat in Hu. destruct Hu as (l & Hl & Hu). apply in_map_iff in Hl. destruct Hl as (x & <- & Hx).
        apply in_concat in Hv. destruct Hv as (l & Hl & Hv). apply in_map_iff in Hl. destruct Hl as (y & <- & Hy).
        apply B2 in Hu; auto. apply B1 in Hv; auto. destruct Hu as (_ & U1 & U2), Hv as (_ & V1 & V2).
        apply I2 in Hx. apply I1 in Hy. rewrite U1, U2 in H1. rewrite V1, V2 in H2.
        destruct (Nat.leb_spec (x + 2 * SS) m), (Nat.leb_spec (y + 1 * SS) m); lia.
      * intros u v Hu Hv a b [H1 _] [H2 _].
        apply in_concat in Hu. destruct Hu as (l & Hl & Hu). apply in_map_iff in Hl. destruct Hl as (x & <- & Hx).
        apply B3 in Hu; auto. destruct Hu as (_ & U1 & U2). apply I3 in Hx. rewrite U1, U2 in H1.
        apply in_app_or in Hv. destruct Hv as [Hv|Hv].
        -- apply in_concat in Hv. destruct Hv as (l & Hl & Hv). apply in_map_iff in Hl. destruct Hl as (y & <- & Hy).
           apply B2 in Hv; auto. destruct Hv as (_ & V1 & V2). apply I2 in Hy. rewrite V1, V2 in H2.
           destruct (Nat.leb_spec (x + 3 * SS) m), (Nat.leb_spec (y + 2 * SS) m); lia.
        -- apply in_concat in Hv. destruct Hv as (l & Hl & Hv). apply in_map_iff in Hl. destruct Hl as (y & <- & Hy).
           apply B1 in Hv; auto. destruct Hv as (_ & V1 & V2). apply I1 in Hy. rewrite V1, V2 in H2.
           destruct (Nat.leb_spec (x + 3 * SS) m), (Nat.leb_spec (y + 1 * SS) m); lia.
    + intros x y Hx Hy.
      destruct (Nat.lt_ge_cases x (snd r3)) as [L3|L3].
      { destruct (steps_cover c3 (3 * SS) (m + 1) 0 x ltac:(lia)) as (k & Hk & Hk2). { fold r3. lia. }
        fold r3 in Hk. destruct (I3 k Hk) as (A & B & Q).
        destruct (row_cover 3 m n k ltac:(lia) ltac:(lia) x y) as (c & Hc & Hin); [destruct (Nat.leb_spec (k + 3 * SS) m); lia | exact Hy | ].
        exists c. split; auto. apply in_or_app. left. apply in_concat.
        exists (tile_backend SS 3 STEP m n k). split; auto. apply in_map_iff. eauto. }
      destruct (Nat.lt_ge_cases x (snd r2)) as [L2|L2].
      { destruct (steps_cover c2 (2 * SS) (m + 1) (snd r3) x ltac:(lia)) as (k & Hk & Hk2). { fold r2. lia. }
        fold r2 in Hk. destruct (I2 k Hk) as (A & B & C & Q).
        destruct (row_cover 2 m n k ltac:(lia) ltac:(lia) x y) as (c & Hc & Hin); [destruct (Nat.leb_spec (k + 2 * SS) m); lia | exact Hy | ].
        exists c. split; auto. apply in_or_app. right. apply in_or_app. left. apply in_concat.
        exists (tile_backend SS 2 STEP m n k). split; auto. apply in_map_iff. eauto. }
      { destruct (steps_cover c1 (1 * SS) (m + 1) (snd r2) x ltac:(lia)) as (k & Hk & Hk2). { fold r1. lia. }
        fold r1 in Hk. destruct (I1 k Hk) as (A & B & C & Q).
        destruct (row_cover 1 m n k ltac:(lia) ltac:(lia) x y) as (c & Hc & Hin); [destruct (Nat.leb_spec (k + 1 * SS) m); lia | exact Hy | ].
        exists c. split; auto. apply in_or_app. right. apply in_or_app. right. apply in_concat.
        exists (tile_backend SS 1 STEP m n k). split; auto. apply in_map_iff. eauto. }
  - (* columnMajor traversal *)
    set (rj := steps (n + 1) (fun j => j + STEP <=? n) STEP 0).
    pose proof (row_final n) as (F1 & F2 & F3). fold rj in F1, F2, F3.
    pose proof (row_inj n) as RJ. fold rj in RJ.
    unfold tile. fold rj.
    assert (KF : forall j, In j (fst rj) -> forall c, In c (tile_column SS STEP true m j STEP) ->
       call_ok m n c /\ k_j c = j /\ k_nn c = STEP).
    { intros j Hj c Hc. apply RJ in Hj. apply col_ok with (full := true); auto; idtac; lia || tauto. }
    assert (KP : snd rj < n -> forall c, In c (tile_column SS STEP false m (snd rj) (n - snd rj)) ->
       call_ok m n c /\ k_j c = snd rj /\ k_nn c = n - snd rj).
    { intros Hlt c Hc. apply col_ok with (full := false); auto; try lia; try discriminate. }
    split; [|split].
    + intros c H. apply in_app_or in H. destruct H as [H|H].
      * apply in_concat in H. destruct H as (l & Hl & H). apply in_map_iff in Hl. destruct Hl as (j & <- & Hj).
        apply (KF j Hj c H).
      * destruct (Nat.ltb_spec (snd rj) n); [|contradiction]. apply (KP H0 c H).
    + apply FOP_app.
      * apply FOP_steps_concat.
        { intros j Hj. apply RJ in Hj. apply col_disj with (n := n); auto; idtac; lia || tauto. }
        { intros x y u v Hxy Hu Hv Hx Hy a b [_ H1] [_ H2].
          destruct (KF x Hx u Hu) as (_ & U1 & U2). destruct (KF y Hy v Hv) as (_ & V1 & V2).
          rewrite U1, U2 in H1. rewrite V1, V2 in H2. lia. }
      * destruct (Nat.ltb_spec (snd rj) n); [apply col_disj with (n := n); auto; try lia; discriminate | constructor].
      * intros u v Hu Hv a b [_ H1] [_ H2].
        apply in_concat in Hu. destruct Hu as (l & Hl & Hu). apply in_map_iff in Hl. destruct Hl as (x & <- & Hx).
        destruct (KF x Hx u Hu) as (_ & U1 & U2).
        destruct (Nat.ltb_spec (snd rj) n) as [Hlt|]; [|contradiction].
        destruct (KP Hlt v Hv) as (_ & V1 & V2). apply RJ in Hx. rewrite U1, U2 in H1. rewrite V1, V2 in H2. lia.
    + intros x y Hx Hy. destruct (Nat.lt_ge_cases y (snd rj)) as [L|L].
      * destruct (steps_cover (fun j => j + STEP <=? n) STEP (n + 1) 0 y) as (k & Hk & Hk2).
        { lia. } { fold rj. lia. }
        assert (CC : exists c, In c (tile_column SS STEP true m k STEP) /\ in_call c x y).
        { fold rj in Hk. apply RJ in Hk. eapply col_cover with (n := n); auto; idtac; lia || tauto. }
        destruct CC as (c & Hc & Hin).
        exists c. split; auto. apply in_or_app. left. apply in_concat. eexists. split; [|exact Hc].
        apply in_map_iff. eauto.
      * assert (CC : exists c, In c (tile_column SS STEP false m (snd rj) (n - snd rj)) /\ in_call c x y).
        { eapply col_cover with (n := n); auto; try lia; discriminate. }
        destruct CC as (c & Hc & Hin).
        exists c. split; auto. apply in_or_app. right. destruct (Nat.ltb_spec (snd rj) n); [auto|lia].
Qed.

End Tile.
