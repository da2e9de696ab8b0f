(** Base_Proofs.v -- reasoning rules for the semantic domains of Base.v *)
From Coq Require Import Arith Lia List Bool PeanoNat.
From Verif Require Import Base.
Import ListNotations.

Lemma bind_ok_inv : forall A B (x : res A) (f : A -> res B) b,
  bind x f = Ok b -> exists a, x = Ok a /\ f a = Ok b.
Proof. intros A B [a| | | |] f b H; simpl in H; try discriminate. eauto. Qed.

Lemma loop_inv : forall St (P : nat -> St -> Prop) n lo f s,
  P lo s ->
  (forall i s, lo <= i < lo + n -> P i s -> exists s', f i s = Ok s' /\ P (S i) s') ->
  exists s', loop n lo f s = Ok s' /\ P (lo + n) s'.
Proof.
  intros St P n; induction n as [|n IH]; intros lo f s HP Hf; simpl.
  - exists s. rewrite Nat.add_0_r. auto.
  - destruct (Hf lo s ltac:(lia) HP) as (s1 & E1 & P1). rewrite E1; simpl.
    destruct (IH (S lo) f s1 P1) as (s2 & E2 & P2).
    + intros i s0 Hi. apply Hf. lia.
    + exists s2. split; auto. replace (lo + S n) with (S lo + n) by lia. auto.
Qed.

Lemma for_inv : forall St (P : nat -> St -> Prop) lo hi f s,
  lo <= hi ->
  P lo s ->
  (forall i s, lo <= i < hi -> P i s -> exists s', f i s = Ok s' /\ P (S i) s') ->
  exists s', for_ lo hi f s = Ok s' /\ P hi s'.
Proof.
  intros St P lo hi f s Hle HP Hf. unfold for_.
  destruct (loop_inv St P (hi - lo) lo f s HP) as (s' & E & HP').
  - intros i s0 Hi. apply Hf. lia.
  - exists s'. split; auto. replace hi with (lo + (hi - lo)) by lia. auto.
Qed.

Lemma for_empty : forall St lo hi f (s : St), hi <= lo -> for_ lo hi f s = Ok s.
Proof. intros. unfold for_. replace (hi - lo) with 0 by lia. reflexivity. Qed.

Lemma loop_ext : forall St n lo (f g : nat -> St -> res St) s,
  (forall i s, lo <= i < lo + n -> f i s = g i s) -> loop n lo f s = loop n lo g s.
Proof.
  intros St n; induction n as [|n IH]; intros lo f g s H; simpl; auto.
  rewrite H by lia. destruct (g lo s); simpl; auto. apply IH. intros; apply H; lia.
Qed.

Lemma foldM_inv : forall A St (P : list A -> St -> Prop) f l s,
  P [] s ->
  (forall pre a post s, l = pre ++ a :: post -> P pre s ->
     exists s', f a s = Ok s' /\ P (pre ++ [a]) s') ->
  exists s', foldM f l s = Ok s' /\ P l s'.
Proof.
  intros A St P f l s HP Hf.
  assert (G : forall post pre s, l = pre ++ post -> P pre s ->
             exists s', foldM f post s = Ok s' /\ P l s').
  { induction post as [|a post IH]; intros pre s0 E Hp; simpl.
    - exists s0. split; auto. rewrite app_nil_r in E. subst; auto.
    - destruct (Hf pre a post s0 E Hp) as (s1 & E1 & P1). rewrite E1; simpl.
      apply (IH (pre ++ [a])); auto. rewrite <- app_assoc. exact E. }
  apply (G l [] s); auto.
Qed.

Lemma foldM_app : forall A St (f : A -> St -> res St) l1 l2 s,
  foldM f (l1 ++ l2) s = bind (foldM f l1 s) (foldM f l2).
Proof.
  intros A St f l1; induction l1 as [|a l1 IH]; intros l2 s; simpl; auto.
  destruct (f a s); simpl; auto.
Qed.

(** A sufficient amount of fuel makes [steps] leave the loop. *)
Lemma steps_spec : forall (Inv : nat -> Prop) cond step fuel i bound,
  0 < step ->
  Inv i ->
  (forall k, Inv k -> cond k = true -> Inv (k + step)) ->
  (forall k, Inv k -> cond k = true -> k < bound) ->
  bound - i < fuel ->
  let r := steps fuel cond step i in
  cond (snd r) = false /\ Inv (snd r) /\ i <= snd r /\
  (forall x, In x (fst r) -> Inv x /\ cond x = true /\ i <= x /\ x + step <= snd r).
Proof.
  intros Inv cond step fuel; induction fuel as [|fuel IH]; intros i bound Hs Hi Hinv Hb Hf; [lia|].
  simpl. destruct (cond i) eqn:C; simpl.
  - pose proof (Hb i Hi C).
    destruct (IH (i + step) bound Hs (Hinv i Hi C) Hinv Hb ltac:(lia)) as (A1 & A2 & A3 & A4).
    split; [auto|split; [auto|split; [lia|]]].
    intros x [<-|Hx]; [repeat split; auto; lia|]. destruct (A4 x Hx) as (B1 & B2 & B3 & B4). repeat split; auto; lia.
  - split; [auto|split; [auto|split; [lia|]]]. intros x [].
Qed.

(** The values visited by [steps] partition the interval from the initial to the final i
    into consecutive blocks of length [step]. *)
Lemma steps_cover : forall cond step fuel i x,
  0 < step -> i <= x < snd (steps fuel cond step i) ->
  exists k, In k (fst (steps fuel cond step i)) /\ k <= x < k + step.
Proof.
  intros cond step fuel; induction fuel as [|fuel IH]; intros i x Hs Hx; simpl in *; [lia|].
  destruct (cond i); simpl in *; [|lia].
  destruct (Nat.lt_ge_cases x (i + step)).
  - exists i. split; [left; reflexivity | lia].
  - destruct (IH (i + step) x Hs ltac:(lia)) as (k & Hk & Hk2). exists k; auto.
Qed.

Lemma steps_ge : forall cond step fuel i, i <= snd (steps fuel cond step i).
Proof.
  intros cond step fuel; induction fuel as [|fuel IH]; intros i; simpl; auto.
  destruct (cond i); simpl; auto. specialize (IH (i + step)); lia.
Qed.

Lemma steps_in_ge : forall cond step fuel i x, In x (fst (steps fuel cond step i)) -> i <= x.
Proof.
  intros cond step fuel; induction fuel as [|fuel IH]; intros i x; simpl; [contradiction|].
  destruct (cond i); simpl; [|contradiction].
  intros [<-|H]; auto. specialize (IH _ _ H); lia.
Qed.

Lemma steps_in_le : forall cond step fuel i x,
  In x (fst (steps fuel cond step i)) -> x + step <= snd (steps fuel cond step i).
Proof.
  intros cond step fuel; induction fuel as [|fuel IH]; intros i x; simpl; [contradiction|].
  destruct (cond i); simpl; [|contradiction].
  intros [<-|H]; [apply steps_ge| auto].
Qed.

Lemma steps_in_cond : forall cond step fuel i x,
  In x (fst (steps fuel cond step i)) -> cond x = true.
Proof.
  intros cond step fuel; induction fuel as [|fuel IH]; intros i x; simpl; [contradiction|].
  destruct (cond i) eqn:C; simpl; [|contradiction].
  intros [<-|H]; auto. eapply IH; eauto.
Qed.

(** Two different visited values are at least [step] apart. *)
Lemma steps_disj : forall cond step fuel i l1 x l2 y l3,
  fst (steps fuel cond step i) = l1 ++ x :: l2 ++ y :: l3 -> x + step <= y.
Proof.
  intros cond step fuel; induction fuel as [|fuel IH]; intros i l1 x l2 y l3; simpl.
  - intros H. destruct l1; discriminate.
  - destruct (cond i); simpl; [|intros H; destruct l1; discriminate].
    destruct l1 as [|a l1]; simpl; intros H; injection H as E1 E2.
    + subst. apply (steps_in_ge cond step fuel). rewrite E2.
      apply in_or_app. right. left. reflexivity.
    + eapply IH; eauto.
Qed.

Lemma steps_mult : forall cond step fuel i q x,
  In x (fst (steps fuel cond step i)) -> (exists a, i = q * a) -> (exists a, step = q * a) ->
  exists a, x = q * a.
Proof.
  intros cond step fuel; induction fuel as [|fuel IH]; intros i q x; simpl; [contradiction|].
  destruct (cond i); simpl; [|contradiction].
  intros [<-|H] Hi Hs; auto. apply (IH (i + step) q x H); auto.
  destruct Hi as [a ->]. destruct Hs as [b ->]. exists (a + b). lia.
Qed.

Lemma steps_final_mult : forall cond step fuel i q,
  (exists a, i = q * a) -> (exists a, step = q * a) ->
  exists a, snd (steps fuel cond step i) = q * a.
Proof.
  intros cond step fuel; induction fuel as [|fuel IH]; intros i q Hi Hs; simpl; auto.
  destruct (cond i); simpl; auto. apply IH; auto.
  destruct Hi as [a ->]. destruct Hs as [b ->]. exists (a + b). lia.
Qed.
