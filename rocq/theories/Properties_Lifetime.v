(** Properties_Lifetime.v -- C45: ownership of BLASFEO buffers; C47: lifetime of the dynamically allocated blast matrices. *)
From Coq Require Import Arith Lia List Bool PeanoNat.
From Verif Require Import Base Lifetime_Model.
Import ListNotations.

(* ------------------------------------------------------------------ specification *)
Definition alive (s : lstate) (x : nat) : Prop := objs s x <> None.
Definition in_use (s : lstate) (a : nat) : Prop := heap s a <> None.
Definition owns (s : lstate) (x a : nat) : Prop := objs s x = Some (Some a).
Fixpoint allocations (a : nat) (l : list event) : nat :=
  match l with [] => 0 | Allocated b :: l => (if b =? a then 1 else 0) + allocations a l | Freed _ :: l => allocations a l end.
Fixpoint deallocations (a : nat) (l : list event) : nat :=
  match l with [] => 0 | Freed b :: l => (if b =? a then 1 else 0) + deallocations a l | Allocated _ :: l => deallocations a l end.

(** Every buffer in use has exactly one owner, every pointer refers to a buffer in use, and each address was deallocated as
    often as it was allocated, but for the one time it is in use now. *)
Record owned (s : lstate) : Prop := {
  ow_owner : forall a, in_use s a -> exists x, owns s x a;
  ow_unique : forall x y a, owns s x a -> owns s y a -> x = y;
  ow_valid : forall x a, owns s x a -> in_use s a;
  ow_balance : forall a, allocations a (log s) = deallocations a (log s) + match heap s a with Some _ => 1 | None => 0 end
}.

(** What a program may do: objects are constructed once and used only while alive; allocations return an unused address. *)
Definition storage_legal (s : lstate) (o : storage_op) : Prop :=
  match o with
  | SDefault x => ~ alive s x
  | SAlloc x a => ~ alive s x /\ ~ in_use s a
  | SMoveCtor x y => ~ alive s x /\ alive s y
  | SMoveAssign x y | SSwap x y => alive s x /\ alive s y
  | SDestroy x => alive s x
  end.
Definition matrix_legal (s : lstate) (o : matrix_op) : Prop :=
  match o with
  | MCreate x a => ~ alive s x /\ ~ in_use s a
  | MCopyCtor x y => ~ alive s x /\ alive s y
  | MCopyAssign x y => alive s x /\ alive s y
  | MDestroy x => alive s x
  end.
Definition dyn_legal (s : lstate) (o : dyn_op) : Prop :=
  match o with
  | DCreate x a => ~ alive s x /\ ~ in_use s a
  | DCopyCtor x y | DMoveCtor x y => ~ alive s x /\ alive s y
  | DCopyAssign x y | DMoveAssign x y => alive s x /\ alive s y
  | DDestroy x => alive s x
  end.
Fixpoint legal {Op} (step : lstate -> Op -> res lstate) (ok : lstate -> Op -> Prop) (s : lstate) (h : list Op) : Prop :=
  match h with
  | [] => True
  | o :: h => ok s o /\ match step s o with Ok s' => legal step ok s' h | Throw _ => legal step ok s h | _ => True end
  end.

(* ------------------------------------------------------------------ invariant *)
Lemma pointer_alive : forall s x, alive s x -> exists p, pointer s x = Ok p /\ objs s x = Some p.
Proof. intros s x H. unfold pointer, alive in *. destruct (objs s x); [eauto|contradiction]. Qed.
Lemma construct_ok : forall s x p, ~ alive s x -> construct s x p = Ok (set_obj s x (Some p)).
Proof. intros s x p H. unfold construct, alive in *. destruct (objs s x); auto. destruct H. discriminate. Qed.
Lemma not_alive : forall s x, ~ alive s x -> objs s x = None.
Proof. intros s x H. unfold alive in H. destruct (objs s x); auto. destruct H. discriminate. Qed.
Lemma not_in_use : forall s x, ~ in_use s x -> heap s x = None.
Proof. intros s x H. unfold in_use in H. destruct (heap s x); auto. destruct H. discriminate. Qed.

Lemma owned_empty : owned empty_state.
Proof. split; cbn; auto; unfold in_use, owns; cbn; try discriminate. intros a H. contradiction. Qed.

Lemma owned_default : forall s x, owned s -> ~ alive s x -> owned (set_obj s x (Some None)).
Proof.
  intros s x [H1 H2 H3 H4] NA. apply not_alive in NA.
  assert (E : forall y a, owns (set_obj s x (Some None)) y a <-> owns s y a).
  { intros y a. unfold owns; cbn. destruct (Nat.eqb_spec y x) as [->|]; [|tauto]. rewrite NA. split; discriminate. }
  split.
  - intros a Ha. destruct (H1 a Ha) as (y & Hy). exists y. apply E. auto.
  - intros y z a Hy Hz. apply E in Hy. apply E in Hz. eauto.
  - intros y a Hy. apply E in Hy. exact (H3 y a Hy).
  - exact H4.
Qed.
Lemma owned_alloc : forall s x a k, owned s -> ~ alive s x -> ~ in_use s a -> owned (set_obj (allocate k a s) x (Some (Some a))).
Proof.
  intros s x a k [H1 H2 H3 H4] NA NU. apply not_alive in NA. apply not_in_use in NU.
  assert (E : forall y b, owns (set_obj (allocate k a s) x (Some (Some a))) y b <-> owns s y b \/ (y = x /\ b = a)).
  { intros y b. unfold owns; cbn. destruct (Nat.eqb_spec y x) as [->|].
    - rewrite NA. split; [injection 1 as <-; auto|intros [Q|(_ & ->)]; [discriminate|auto]].
    - split; [auto|intros [Q|(Q & _)]; [auto|contradiction]]. }
  assert (U : forall b, in_use (set_obj (allocate k a s) x (Some (Some a))) b <-> in_use s b \/ b = a).
  { intros b. unfold in_use; cbn. destruct (Nat.eqb_spec b a) as [->|]; [|tauto]. split; [auto|]. discriminate. }
  split.
  - intros b Hb. apply U in Hb. destruct Hb as [Hb| -> ].
    + destruct (H1 b Hb) as (y & Hy). exists y. apply E. auto.
    + exists x. apply E. auto.
  - intros y z b Hy Hz. apply E in Hy. apply E in Hz. destruct Hy as [Hy|(-> & ->)], Hz as [Hz|(-> & Hz)]; subst; auto.
    + eauto.
    + apply H3 in Hy. contradiction.
    + apply H3 in Hz. contradiction.
  - intros y b Hy. apply E in Hy. apply U. destruct Hy as [Hy|(_ & ->)]; [left; eauto|auto].
  - intros b. cbn. rewrite H4. rewrite (Nat.eqb_sym a b). destruct (Nat.eqb_spec b a) as [->|]; [rewrite NU|]; lia.
Qed.
Lemma owned_swap : forall s x y p q, owned s -> objs s x = Some p -> objs s y = Some q -> owned (set_obj (set_obj s x (Some q)) y (Some p)).
Proof.
  intros s x y p q [H1 H2 H3 H4] Hx Hy.
  set (f := fun z => if z =? y then x else if z =? x then y else z).
  assert (E : forall z a, owns (set_obj (set_obj s x (Some q)) y (Some p)) z a <-> owns s (f z) a).
  { intros z a. unfold owns, f; cbn. destruct (Nat.eqb_spec z y) as [->|]; [rewrite Hx; tauto|].
    destruct (Nat.eqb_spec z x) as [->|]; [rewrite Hy; tauto|tauto]. }
  assert (F : forall z, f (f z) = z).
  { intros z. unfold f. destruct (Nat.eqb_spec z y) as [->|A].
    - destruct (Nat.eqb_spec x y) as [->|B]; auto. rewrite Nat.eqb_refl. auto.
    - destruct (Nat.eqb_spec z x) as [->|B]; [rewrite Nat.eqb_refl; auto|].
      destruct (Nat.eqb_spec z y); [contradiction|]. destruct (Nat.eqb_spec z x); [contradiction|auto]. }
  split.
  - intros a Ha. destruct (H1 a Ha) as (z & Hz). exists (f z). apply E. rewrite F. auto.
  - intros z w a Hz Hw. apply E in Hz. apply E in Hw. assert (Q := H2 _ _ _ Hz Hw). rewrite <- (F z), <- (F w), Q. auto.
  - intros z a Hz. apply E in Hz. exact (H3 _ _ Hz).
  - exact H4.
Qed.
Lemma owned_ext : forall s s', (forall x, objs s x = objs s' x) -> (forall a, heap s a = heap s' a) -> log s = log s' -> owned s -> owned s'.
Proof.
  intros s s' E1 E2 E3 [H1 H2 H3 H4]. split; unfold in_use, owns in *.
  - intros a. rewrite <- E2. intros Ha. destruct (H1 a Ha) as (x & Hx). exists x. rewrite <- E1. auto.
  - intros x y a. rewrite <- !E1. apply H2.
  - intros x a. rewrite <- E1, <- E2. apply H3.
  - intros a. rewrite <- E2, <- E3. apply H4.
Qed.
Lemma owned_destroy : forall fits s x, owned s -> alive s x -> (forall a k, heap s a = Some k -> fits k = true) ->
  exists s', destroy fits s x = Ok s' /\ owned s' /\ (forall y, y <> x -> objs s' y = objs s y) /\ objs s' x = None /\
    (forall a k, heap s' a = Some k -> heap s a = Some k).
Proof.
  intros fits s x [H1 H2 H3 H4] HA HF. unfold destroy. destruct (pointer_alive s x HA) as (p & -> & Hp). cbn [bind].
  destruct p as [a|]; cbn [deallocate].
  - destruct (heap s a) as [k|] eqn:Hk.
    2:{ exfalso. apply (H3 x a Hp). auto. }
    rewrite (HF a k Hk). cbn [bind]. eexists. split; [reflexivity|]. split; [|split; [|split]].
    + set (s' := set_obj _ x None).
      assert (E : forall y b, owns s' y b <-> owns s y b /\ b <> a).
      { intros y b. unfold owns, s'; cbn. destruct (Nat.eqb_spec y x) as [->|N].
        - rewrite Hp. split; [discriminate|]. intros (Q & Nb). injection Q as ->. contradiction.
        - split; [|tauto]. intros Q. split; auto. intros ->. apply N. exact (H2 _ _ _ Q Hp). }
      assert (U : forall b, in_use s' b <-> in_use s b /\ b <> a).
      { intros b. unfold in_use, s'; cbn. destruct (Nat.eqb_spec b a) as [->|]; tauto. }
      split.
      * intros b Hb. apply U in Hb. destruct Hb as (Hb & Nb). destruct (H1 b Hb) as (y & Hy). exists y. apply E. auto.
      * intros y z b Hy Hz. apply E in Hy. apply E in Hz. destruct Hy, Hz. eauto.
      * intros y b Hy. apply E in Hy. destruct Hy as (Hy & Nb). apply U. split; eauto.
      * intros b. unfold s'; cbn. rewrite H4. rewrite (Nat.eqb_sym a b). destruct (Nat.eqb_spec b a) as [->|]; [rewrite Hk|]; lia.
    + intros y Hy. cbn. destruct (Nat.eqb_spec y x); [contradiction|auto].
    + cbn. rewrite Nat.eqb_refl. auto.
    + intros b kb. cbn. destruct (b =? a); [discriminate|auto].
  - cbn [bind]. eexists. split; [reflexivity|]. split; [|split; [|split]].
    + assert (E : forall y b, owns (set_obj s x None) y b <-> owns s y b).
      { intros y b. unfold owns; cbn. destruct (Nat.eqb_spec y x) as [->|]; [|tauto]. rewrite Hp. split; discriminate. }
      split.
      * intros b Hb. destruct (H1 b Hb) as (y & Hy). exists y. apply E. auto.
      * intros y z b Hy Hz. apply E in Hy. apply E in Hz. eauto.
      * intros y b Hy. apply E in Hy. exact (H3 y b Hy).
      * exact H4.
    + intros y Hy. cbn. destruct (Nat.eqb_spec y x); [contradiction|auto].
    + cbn. rewrite Nat.eqb_refl. auto.
    + auto.
Qed.

(* ------------------------------------------------------------------ C45: AlignedStorage *)
Definition all_malloc (s : lstate) : Prop := forall a k, heap s a = Some k -> k = Malloc.

Lemma storage_step_ok : forall s o, owned s -> all_malloc s -> storage_legal s o ->
  exists s', storage_step s o = Ok s' /\ owned s' /\ all_malloc s'.
Proof.
  intros s o OW AM L. destruct o as [x|x a|x y|x y|x y|x]; cbn [storage_step storage_legal] in *.
  - rewrite construct_ok by auto. eexists. split; [reflexivity|]. split; [apply owned_default; auto|exact AM].
  - destruct L as (L1 & L2). rewrite construct_ok by auto. eexists. split; [reflexivity|]. split; [apply owned_alloc; auto|].
    intros b k. cbn. destruct (b =? a); [congruence|apply AM].
  - destruct L as (L1 & L2). destruct (pointer_alive s y L2) as (p & -> & Hp). cbn [bind]. rewrite construct_ok by auto. cbn [bind].
    eexists. split; [reflexivity|]. split; [|exact AM].
    assert (N : x <> y) by (intros ->; contradiction).
    apply (owned_ext (set_obj (set_obj (set_obj s x (Some None)) x (Some p)) y (Some None))); try reflexivity.
    + intros z. cbn. destruct (z =? y); auto. destruct (z =? x); auto.
    + apply owned_swap; cbn.
      * apply owned_default; auto.
      * rewrite Nat.eqb_refl. auto.
      * destruct (Nat.eqb_spec y x); [congruence|auto].
  - destruct L as (L1 & L2). unfold swap_ptrs. destruct (pointer_alive s x L1) as (p & -> & Hp), (pointer_alive s y L2) as (q & -> & Hq). cbn [bind].
    eexists. split; [reflexivity|]. split; [apply owned_swap; auto|exact AM].
  - destruct L as (L1 & L2). unfold swap_ptrs. destruct (pointer_alive s x L1) as (p & -> & Hp), (pointer_alive s y L2) as (q & -> & Hq). cbn [bind].
    eexists. split; [reflexivity|]. split; [apply owned_swap; auto|exact AM].
  - destruct (owned_destroy frees_malloc s x OW L) as (s' & E & OW' & _ & _ & HM).
    { intros a k Hk. apply AM in Hk. subst k. auto. }
    exists s'. split; auto. split; auto. intros a k Hk. apply HM in Hk. eauto.
Qed.

(** Over every history of constructions, moves, swaps (self-moves and self-swaps included) and destructions: no undefined
    behaviour -- in particular no buffer is freed twice -- and at every moment every buffer has exactly one owner. *)
Theorem C45_storage_ownership : forall h, legal storage_step storage_legal empty_state h ->
  exists s, run storage_step empty_state h = Ok s /\ owned s.
Proof.
  intros h L.
  assert (G : forall h s, owned s -> all_malloc s -> legal storage_step storage_legal s h -> exists s', run storage_step s h = Ok s' /\ owned s').
  { clear. induction h as [|o h IH]; intros s OW AM L; [exists s; auto|]. cbn [legal run] in *. destruct L as (L1 & L2).
    destruct (storage_step_ok s o OW AM L1) as (s' & E & OW' & AM'). rewrite E in *. apply IH; auto. }
  apply G; auto using owned_empty. intros a k. discriminate.
Qed.
(** When all objects are destroyed nothing is leaked: each buffer was freed exactly as often as it was allocated. *)
Theorem C45_storage_no_leak : forall h s, legal storage_step storage_legal empty_state h -> run storage_step empty_state h = Ok s ->
  (forall x, ~ alive s x) -> (forall a, ~ in_use s a) /\ forall a, allocations a (log s) = deallocations a (log s).
Proof.
  intros h s L E D. destruct (C45_storage_ownership h L) as (s' & E' & OW). rewrite E in E'. injection E' as <-.
  assert (N : forall a, ~ in_use s a).
  { intros a Ha. destruct (ow_owner s OW a Ha) as (x & Hx). apply (D x). unfold alive. rewrite Hx. discriminate. }
  split; auto. intros a. rewrite (ow_balance s OW a). rewrite (not_in_use s a (N a)). lia.
Qed.
(** Move construction takes the buffer and leaves null; move assignment exchanges the buffers; other objects keep theirs. *)
Theorem C45_storage_move : forall s x y p, ~ alive s x -> objs s y = Some p ->
  exists s', storage_step s (SMoveCtor x y) = Ok s' /\ objs s' x = Some p /\ objs s' y = Some None /\
    (forall z, z <> x -> z <> y -> objs s' z = objs s z) /\ (forall a, heap s' a = heap s a).
Proof.
  intros s x y p NA Hy. cbn [storage_step]. unfold pointer. rewrite Hy. cbn [bind]. rewrite construct_ok by auto. cbn [bind].
  eexists. split; [reflexivity|]. cbn. assert (x <> y) by (intros ->; apply NA; unfold alive; rewrite Hy; discriminate).
  rewrite !Nat.eqb_refl. split; [|split; [auto|split; [|auto]]].
  - destruct (Nat.eqb_spec x y); [contradiction|auto].
  - intros z Z1 Z2. destruct (Nat.eqb_spec z y), (Nat.eqb_spec z x); auto; contradiction.
Qed.
Theorem C45_storage_move_assign : forall s x y p q o, objs s x = Some p -> objs s y = Some q -> o = SMoveAssign x y \/ o = SSwap x y ->
  exists s', storage_step s o = Ok s' /\ objs s' x = Some q /\ objs s' y = Some p /\
    (forall z, z <> x -> z <> y -> objs s' z = objs s z) /\ (forall a, heap s' a = heap s a).
Proof.
  intros s x y p q o Hx Hy Ho. assert (E : storage_step s o = swap_ptrs s x y) by (destruct Ho; subst o; reflexivity). rewrite E.
  unfold swap_ptrs, pointer. rewrite Hx, Hy. cbn [bind]. eexists. split; [reflexivity|]. cbn. rewrite !Nat.eqb_refl.
  split; [|split; [auto|split; [|auto]]].
  - destruct (Nat.eqb_spec x y) as [->|]; auto. congruence.
  - intros z Z1 Z2. destruct (Nat.eqb_spec z y), (Nat.eqb_spec z x); auto; contradiction.
Qed.

(** Example: construct, move, self-move, move-assign, address reuse, destroy everything in another order. *)
Definition ex_history : list storage_op :=
  [SAlloc 0 64; SDefault 1; SMoveCtor 2 0; SMoveAssign 2 2; SAlloc 3 128; SMoveAssign 1 2; SSwap 1 3; SDestroy 1; SAlloc 4 128; SDestroy 0;
   SDestroy 4; SDestroy 3; SDestroy 2].
Example C45_ex : legal storage_step storage_legal empty_state ex_history /\
  match run storage_step empty_state ex_history with
  | Ok s => rev (log s) = [Allocated 64; Allocated 128; Freed 128; Allocated 128; Freed 128; Freed 64]
  | _ => False end.
Proof. split; [|vm_compute; reflexivity]. cbn. unfold alive, in_use; cbn. repeat split; try discriminate; auto. Qed.

(* ------------------------------------------------------------------ C45: blasfeo::DynamicMatrix *)
(** Without copies the ownership discipline holds ... *)
Definition copies (o : matrix_op) : bool := match o with MCopyCtor _ _ | MCopyAssign _ _ => true | _ => false end.
Theorem C45_matrix_without_copies : forall h, forallb (fun o => negb (copies o)) h = true -> legal matrix_step matrix_legal empty_state h ->
  exists s, run matrix_step empty_state h = Ok s /\ owned s.
Proof.
  intros h NC L.
  assert (G : forall h s, owned s -> all_malloc s -> forallb (fun o => negb (copies o)) h = true -> legal matrix_step matrix_legal s h ->
     exists s', run matrix_step s h = Ok s' /\ owned s').
  { clear. induction h as [|o h IH]; intros s OW AM NC L; [exists s; auto|]. cbn [legal run forallb] in *. destruct L as (L1 & L2).
    apply andb_prop in NC. destruct NC as (N1 & N2).
    assert (S1 : exists s', matrix_step s o = Ok s' /\ owned s' /\ all_malloc s').
    { destruct o as [x a|x y|x y|x]; cbn [matrix_step matrix_legal copies negb] in *; try discriminate.
      - destruct L1 as (A1 & A2). rewrite construct_ok by auto. eexists. split; [reflexivity|]. split; [apply owned_alloc; auto|].
        intros b k. cbn. destruct (b =? a); [congruence|apply AM].
      - destruct (owned_destroy frees_malloc s x OW L1) as (s' & E & OW' & _ & _ & HM).
        { intros a k Hk. apply AM in Hk. subst k. auto. }
        exists s'. split; auto. split; auto. intros a k Hk. apply HM in Hk. eauto. }
    destruct S1 as (s' & E & OW' & AM'). rewrite E in *. apply IH; auto. }
  apply G; auto using owned_empty. intros a k. discriminate.
Qed.
(** ... but the class can be copied, and then it does not: destroying a matrix and its copy frees the buffer twice, and
    assignment leaks the buffer of the left-hand side. *)
Theorem C45_matrix_copy_refuted : forall x y a, x <> y ->
  legal matrix_step matrix_legal empty_state [MCreate x a; MCopyCtor y x; MDestroy y; MDestroy x] /\
  run matrix_step empty_state [MCreate x a; MCopyCtor y x; MDestroy y; MDestroy x] = UB.
Proof.
  intros x y a N.
  assert (E1 : (y =? x) = false) by (apply Nat.eqb_neq; auto). assert (E2 : (x =? y) = false) by (apply Nat.eqb_neq; auto).
  split; cbn -[Nat.eqb]; unfold alive, in_use, construct, pointer, destroy, deallocate; cbn -[Nat.eqb];
    repeat (rewrite ?Nat.eqb_refl, ?E1, ?E2; cbn -[Nat.eqb]; unfold alive, in_use, construct, pointer, destroy, deallocate; cbn -[Nat.eqb]).
  - repeat split; try discriminate; auto.
  - reflexivity.
Qed.
Theorem C45_matrix_assign_leak_refuted : forall x y a b, x <> y -> a <> b ->
  let h := [MCreate x a; MCreate y b; MCopyAssign x y] in
  legal matrix_step matrix_legal empty_state h /\
  match run matrix_step empty_state h with Ok s => in_use s a /\ forall z, ~ owns s z a | _ => False end.
Proof.
  intros x y a b N M h.
  assert (E1 : (y =? x) = false) by (apply Nat.eqb_neq; auto). assert (E2 : (x =? y) = false) by (apply Nat.eqb_neq; auto).
  assert (E3 : (a =? b) = false) by (apply Nat.eqb_neq; auto). assert (E4 : (b =? a) = false) by (apply Nat.eqb_neq; auto).
  unfold h. split; cbn -[Nat.eqb]; unfold alive, in_use, construct, pointer; cbn -[Nat.eqb];
    repeat (rewrite ?Nat.eqb_refl, ?E1, ?E2, ?E3, ?E4; cbn -[Nat.eqb]; unfold alive, in_use, construct, pointer; cbn -[Nat.eqb]).
  - repeat split; try discriminate; auto.
  - split; [discriminate|]. intros z. unfold owns. cbn -[Nat.eqb]. destruct (z =? x); [congruence|].
    destruct (z =? y); [congruence|]. destruct (z =? x); congruence.
Qed.

(* ------------------------------------------------------------------ C47: blast::DynamicMatrix, blast::DynamicPanelMatrix *)
Definition moves (o : dyn_op) : bool := match o with DMoveCtor _ _ | DMoveAssign _ _ => true | _ => false end.
(** With interchangeable deallocation functions: every history of constructions, attempted copies and destructions runs, every
    buffer has exactly one owner and nothing is freed twice. *)
Theorem C47_dynamic_ownership : forall h, forallb (fun o => negb (moves o)) h = true -> legal (dyn_step false) dyn_legal empty_state h ->
  exists s, run (dyn_step false) empty_state h = Ok s /\ owned s.
Proof.
  intros h NM L.
  assert (G : forall h s, owned s -> (forall a k, heap s a = Some k -> k = AlignedNew) -> forallb (fun o => negb (moves o)) h = true ->
     legal (dyn_step false) dyn_legal s h -> exists s', run (dyn_step false) s h = Ok s' /\ owned s').
  { clear. induction h as [|o h IH]; intros s OW AM NC L; [exists s; auto|]. cbn [legal run forallb] in *. destruct L as (L1 & L2).
    apply andb_prop in NC. destruct NC as (N1 & N2).
    destruct o as [x a|x y|x y|x y|x y|x]; cbn [dyn_step dyn_legal moves negb] in *; try discriminate; try (apply IH; auto; fail).
    - destruct L1 as (A1 & A2). rewrite construct_ok in * by auto. apply IH; auto; [apply owned_alloc; auto|].
      intros b k. cbn. destruct (b =? a); [congruence|apply AM].
    - destruct (owned_destroy (plain_delete false) s x OW L1) as (s' & E & OW' & _ & _ & HM).
      { intros a k Hk. apply AM in Hk. subst k. auto. }
      rewrite E in *. apply IH; auto. intros a k Hk. apply HM in Hk. eauto. }
  apply G; auto using owned_empty. intros a k. discriminate.
Qed.
Theorem C47_dynamic_no_leak : forall h s, forallb (fun o => negb (moves o)) h = true -> legal (dyn_step false) dyn_legal empty_state h ->
  run (dyn_step false) empty_state h = Ok s -> (forall x, ~ alive s x) ->
  (forall a, ~ in_use s a) /\ forall a, allocations a (log s) = deallocations a (log s).
Proof.
  intros h s NM L E D. destruct (C47_dynamic_ownership h NM L) as (s' & E' & OW). rewrite E in E'. injection E' as <-.
  assert (N : forall a, ~ in_use s a).
  { intros a Ha. destruct (ow_owner s OW a Ha) as (x & Hx). apply (D x). unfold alive. rewrite Hx. discriminate. }
  split; auto. intros a. rewrite (ow_balance s OW a), (not_in_use s a (N a)). lia.
Qed.
(** Copying is refused with logic_error and changes nothing; moving, declared noexcept, terminates the program. *)
Theorem C47_copy_refused : forall strict s x y,
  dyn_step strict s (DCopyCtor x y) = Throw LogicError /\ dyn_step strict s (DCopyAssign x y) = Throw LogicError /\
  forall h, run (dyn_step strict) s (DCopyCtor x y :: h) = run (dyn_step strict) s h.
Proof. intros. repeat split. Qed.
Theorem C47_move_refuted : forall strict s x y, dyn_step strict s (DMoveCtor x y) = Terminate /\ dyn_step strict s (DMoveAssign x y) = Terminate.
Proof. intros. split; reflexivity. Qed.
(** By the standard the destructor releases the buffer with the wrong deallocation function: destroying any matrix that was
    ever constructed is undefined behaviour. *)
Theorem C47_mismatched_delete_refuted : forall s x a, heap s a = Some AlignedNew -> owns s x a -> dyn_step true s (DDestroy x) = UB.
Proof.
  intros s x a Hh Ho. cbn [dyn_step]. unfold destroy, pointer. unfold owns in Ho. rewrite Ho. cbn [bind deallocate]. rewrite Hh. reflexivity.
Qed.
Example C47_ex : let h := [DCreate 0 64; DCopyCtor 1 0; DCreate 1 128; DCopyAssign 0 1; DDestroy 0; DDestroy 1] in
  legal (dyn_step false) dyn_legal empty_state h /\
  match run (dyn_step false) empty_state h with Ok s => rev (log s) = [Allocated 64; Allocated 128; Freed 64; Freed 128] | _ => False end /\
  run (dyn_step true) empty_state h = UB.
Proof. split; [|split; vm_compute; reflexivity]. cbn. unfold alive, in_use; cbn. repeat split; try discriminate; auto. Qed.
