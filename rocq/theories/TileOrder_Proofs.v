(** TileOrder_Proofs.v -- the order of the calls of tile(), and tiled execution in which a call reads what later calls write. *)
From Coq Require Import Arith Lia List Bool PeanoNat.
From Verif Require Import Base Base_Proofs Spec Layout_Model Tile_Model Tile_Proofs Gemm_Proofs.
Import ListNotations.

Lemma backend_row : forall SS RM KN m n i c, In c (tile_backend SS RM KN m n i) -> k_i c = i.
Proof.
  intros SS RM KN m n i c H. unfold tile_backend in H.
  destruct (i + RM * SS <=? m); apply in_app_or in H; (destruct H as [H|H]; [apply in_map_iff in H; destruct H as (j & <- & _); reflexivity|]);
    (destruct (_ <? n) in H; [destruct H as [<-|[]]; reflexivity|destruct H]).
Qed.
Lemma column_col : forall SS STEP full m j cols c, In c (tile_column SS STEP full m j cols) -> k_j c = j.
Proof.
  intros SS STEP full m j cols c H. unfold tile_column in H. repeat (apply in_app_or in H; destruct H as [H|H]);
    try (apply in_map_iff in H; destruct H as (i & <- & _); reflexivity).
  destruct (_ <? m) in H; [destruct H as [<-|[]]; reflexivity|destruct H].
Qed.
Lemma FOP_const : forall A (f : A -> nat) x l, (forall a, In a l -> f a = x) -> ForallOrdPairs (fun a b => f a <= f b) l.
Proof.
  intros A f x l. induction l as [|a l IH]; intros H; constructor.
  - apply Forall_forall. intros b Hb. rewrite (H a), (H b) by (cbn; auto). lia.
  - apply IH. intros b Hb. apply H. cbn; auto.
Qed.
Lemma in_concat_map : forall A (f : nat -> list A) l a, In a (concat (map f l)) -> exists x, In x l /\ In a (f x).
Proof. intros A f l a H. apply in_concat in H. destruct H as (y & Hy & H). apply in_map_iff in Hy. destruct Hy as (x & <- & Hx). eauto. Qed.

(** The row blocks of the row-major traversal, and the column blocks of the column-major one, are visited in increasing order. *)
Lemma tile_ordered : forall SS STEP tr m n,
  ForallOrdPairs (fun c d => match tr with rowMajor => k_i c <= k_i d | columnMajor => k_j c <= k_j d end) (tile SS STEP tr m n).
Proof.
  intros SS STEP tr m n. destruct tr; unfold tile.
  - set (r3 := steps _ _ (3 * SS) 0). set (r2 := steps _ _ (2 * SS) (snd r3)). set (r1 := steps _ _ (1 * SS) (snd r2)).
    assert (G : forall RM cond fuel i0, ForallOrdPairs (fun c d => k_i c <= k_i d) (concat (map (fun i => tile_backend SS RM STEP m n i) (fst (steps fuel cond (RM * SS) i0))))).
    { intros RM cond fuel i0. apply FOP_steps_concat.
      - intros x _. apply (FOP_const _ _ x). intros c Hc. apply (backend_row SS RM STEP m n). exact Hc.
      - intros x y u v Hxy Hu Hv _ _. apply backend_row in Hu. apply backend_row in Hv. lia. }
    assert (L3 : forall c, In c (concat (map (fun i => tile_backend SS 3 STEP m n i) (fst r3))) -> k_i c <= snd r3).
    { intros c H. apply in_concat_map in H. destruct H as (x & Hx & H). apply backend_row in H. apply steps_in_le in Hx. fold r3 in Hx. lia. }
    assert (L2 : forall c, In c (concat (map (fun i => tile_backend SS 2 STEP m n i) (fst r2))) -> snd r3 <= k_i c <= snd r2).
    { intros c H. apply in_concat_map in H. destruct H as (x & Hx & H). apply backend_row in H. pose proof (steps_in_ge _ _ _ _ _ Hx). apply steps_in_le in Hx. fold r2 in Hx. lia. }
    assert (L1 : forall c, In c (concat (map (fun i => tile_backend SS 1 STEP m n i) (fst r1))) -> snd r2 <= k_i c).
    { intros c H. apply in_concat_map in H. destruct H as (x & Hx & H). apply backend_row in H. pose proof (steps_in_ge _ _ _ _ _ Hx). lia. }
    apply FOP_app; [apply G|apply FOP_app; [apply G|apply G|]|].
    + intros x y Hx Hy. apply L2 in Hx. apply L1 in Hy. lia.
    + intros x y Hx Hy. apply L3 in Hx. apply in_app_or in Hy. destruct Hy as [Hy|Hy]; [apply L2 in Hy; lia|].
      apply L1 in Hy. pose proof (steps_ge (fun i => i + 1 * SS <? m) (2 * SS) (m + 1) (snd r3)) as E. fold r2 in E. lia.
  - set (rj := steps _ _ STEP 0).
    apply FOP_app.
    + apply FOP_steps_concat.
      * intros x _. apply (FOP_const _ _ x). intros c Hc. apply column_col in Hc. exact Hc.
      * intros x y u v Hxy Hu Hv _ _. apply column_col in Hu. apply column_col in Hv. lia.
    + destruct (snd rj <? n); [|constructor]. apply (FOP_const _ _ (snd rj)). intros c Hc. apply column_col in Hc. exact Hc.
    + intros x y Hx Hy. apply in_concat_map in Hx. destruct Hx as (z & Hz & Hx). apply column_col in Hx. apply steps_in_le in Hz. fold rj in Hz.
      destruct (snd rj <? n); [|destruct Hy]. apply column_col in Hy. lia.
Qed.

(** An earlier call does not touch the rows from the first row of a later call on, in its columns (row-major traversal);
    nor the columns from its first column on, in its rows (column-major traversal). *)
Lemma tile_behind : forall SS STEP tr m n pre c post d i j, 0 < SS -> 0 < STEP -> tile SS STEP tr m n = pre ++ c :: post -> In d pre ->
  match tr with rowMajor => k_i c <= i /\ k_j c <= j < k_j c + k_nn c | columnMajor => k_j c <= j /\ k_i c <= i < k_i c + k_m c end -> ~ in_call d i j.
Proof.
  intros SS STEP tr m n pre c post d i j HSS HST E Hd Hc Hdij.
  destruct (tile_ok_disj_cover SS HSS STEP HST tr m n) as (TA & TB & _).
  pose proof (FOP_split _ _ _ _ _ _ (tile_ordered SS STEP tr m n) E) as [O _]. specialize (O d Hd).
  pose proof (FOP_split _ _ _ _ _ _ TB E) as [D _]. specialize (D d Hd).
  assert (In c (tile SS STEP tr m n)) as Ic by (rewrite E; apply in_or_app; right; left; reflexivity).
  destruct (TA c Ic) as (_ & _ & _ & _ & K1 & K2 & _).
  unfold in_call in Hdij. destruct tr.
  - apply (D (k_i c) j); unfold in_call; lia.
  - apply (D i (k_j c)); unfold in_call; lia.
Qed.

(** As [tiled], with calls that find the effect of the earlier calls in the memory (and only that). *)
Lemma tiled_in_order : forall A T (f : A -> mem T -> res (mem T)) (l : list A) (P : A -> nat -> nat -> Prop)
    (U : nat -> nat -> Prop) ad e (m0 : mem T),
  (forall c i j, In c l -> P c i j -> U i j) ->
  (forall i j, U i j -> exists c, In c l /\ P c i j) ->
  (forall i j i' j', U i j -> U i' j' -> ad i j = ad i' j' -> i = i' /\ j = j') ->
  ForallOrdPairs (fun c d => forall i j, P c i j -> ~ P d i j) l ->
  (forall pre c post m, l = pre ++ c :: post -> (forall a, (forall d i j, In d pre -> P d i j -> a <> ad i j) -> m a = m0 a) ->
     exists m', f c m = Ok m' /\ updated (P c) ad e m m') ->
  exists m', foldM f l m0 = Ok m' /\ updated U ad e m0 m'.
Proof.
  intros A T f l P U ad e m0 HU HC Hinj HF Hf.
  destruct (foldM_inv A (mem T) (fun pre m => updated (fun i j => exists c, In c pre /\ P c i j) ad e m0 m) f l m0) as (m' & E & U1 & U2).
  - split; [intros i j (c & [] & _)|auto].
  - intros pre c post m El [V1 V2].
    destruct (Hf pre c post m El) as (m' & E & W1 & W2).
    { intros a Ha. apply V2. intros i j (d & Hd & Hp). eauto. }
    exists m'. split; auto. split.
    + intros i j (d & Hd & Hp). apply in_app_or in Hd. destruct Hd as [Hd|[<-|[]]]; auto.
      rewrite W2; [eauto|]. intros i' j' Hp' X. destruct (FOP_split _ _ _ _ _ _ HF El) as [F _].
      assert (i = i' /\ j = j') as [<- <-].
      { apply Hinj; auto; [apply (HU d)|apply (HU c)]; auto; rewrite El; apply in_or_app; cbn; auto. }
      exact (F d Hd i j Hp Hp').
    + intros a Ha. rewrite W2, V2; auto.
      * intros i j (d & Hd & Hp). apply (Ha i j). exists d. split; auto. apply in_or_app. auto.
      * intros i j Hp. apply (Ha i j). exists c. split; auto. apply in_or_app. cbn; auto.
  - exists m'. split; auto. split.
    + intros i j H. destruct (HC i j H) as (c & Hc & Hp). apply U1. eauto.
    + intros a Ha. apply U2. intros i j (c & Hc & Hp). apply Ha. eauto.
Qed.
