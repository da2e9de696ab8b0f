(** Properties_Strided.v -- C42: loads and stores through strided vector pointers. *)
From Coq Require Import Arith Lia List Bool PeanoNat ZArith.
From Verif Require Import Base Base_Proofs Spec Layout_Model Layout_Proofs Simd_Model Simd_Proofs Vec_Proofs Scan_Proofs Instances.
Import ListNotations.

(** A pointer with element spacing s (static or dynamic). *)
Definition strided (v : vptr) (s : nat) : Prop := exists af b, v = VStat s af b \/ v = VDyn s b.
(** Aligned static pointers of spacing 1 must be aligned. *)
Definition aligned_ok (SS : nat) (v : vptr) : Prop := match v with VStat 1 true b => b mod SS = 0 | _ => True end.

Section S.
Variables (SS : nat) (T : Type) (O : Ops T) (al : alloc).
Hypothesis HSS : 0 < SS.
Lemma gatherm_ok : forall b s mk m, (forall l, l < SS -> mk l = true -> al (b + s * l) = true) ->
  exists v, gatherm SS T O al b s mk m = Ok v /\ forall l, l < SS -> v l = if mk l then m (b + s * l) else o0 O.
Proof.
  intros b s mk m H. unfold gatherm.
  destruct (for_inv (vec T) (fun n v => forall l, l < n -> v l = if mk l then m (b + s * l) else o0 O) 0 SS
    (fun i v => x <- (if mk i then rd al m (b + s * i) else Ok (o0 O)) ;; Ok (mupd v i x)) (fun _ => o0 O)) as (v & E & P); try lia.
  - intros i v Hi P. destruct (mk i) eqn:K.
    + rewrite rd_ok by (apply H; auto; lia). cbn [bind]. eexists. split; [reflexivity|]. intros l Hl. destruct (Nat.eq_dec l i) as [->|].
      * rewrite mupd_eq, K. reflexivity.
      * rewrite mupd_neq by auto. apply P. lia.
    + cbn [bind]. eexists. split; [reflexivity|]. intros l Hl. destruct (Nat.eq_dec l i) as [->|].
      * rewrite mupd_eq, K. reflexivity.
      * rewrite mupd_neq by auto. apply P. lia.
  - exists v. auto.
Qed.
Lemma gather_ok : forall b s m, (forall l, l < SS -> al (b + s * l) = true) ->
  exists v, gather SS T O al b s m = Ok v /\ forall l, l < SS -> v l = m (b + s * l).
Proof.
  intros b s m H. unfold gather.
  destruct (for_inv (vec T) (fun n v => forall l, l < n -> v l = m (b + s * l)) 0 SS
    (fun i v => x <- rd al m (b + s * i) ;; Ok (mupd v i x)) (fun _ => o0 O)) as (v & E & P); try lia.
  - intros i v Hi P. rewrite rd_ok by (apply H; lia). cbn [bind]. eexists. split; [reflexivity|]. intros l Hl. destruct (Nat.eq_dec l i) as [->|].
    + rewrite mupd_eq. reflexivity.
    + rewrite mupd_neq by auto. apply P. lia.
  - exists v. auto.
Qed.
Lemma scatterm_ok : forall b s mk (x : vec T) m, 0 < s -> (forall l, l < SS -> mk l = true -> al (b + s * l) = true) ->
  exists m', scatterm SS T al b s x mk m = Ok m' /\
    (forall l, l < SS -> mk l = true -> m' (b + s * l) = x l) /\ (forall a, (forall l, l < SS -> mk l = true -> a <> b + s * l) -> m' a = m a).
Proof.
  intros b s mk x m Hs H. unfold scatterm.
  destruct (for_inv (mem T) (fun n m' => (forall l, l < n -> mk l = true -> m' (b + s * l) = x l) /\ (forall a, (forall l, l < n -> mk l = true -> a <> b + s * l) -> m' a = m a)) 0 SS
    (fun i m => if mk i then wr al m (b + s * i) (x i) else Ok m) m) as (m' & E & P); try lia.
  - split; [lia|auto].
  - intros i m1 Hi [P1 P2]. destruct (mk i) eqn:K.
    + rewrite wr_ok by (apply H; auto; lia). eexists. split; [reflexivity|]. split.
      * intros l Hl Kl. destruct (Nat.eq_dec l i) as [->|]; [apply mupd_eq|]. rewrite mupd_neq by (intros Q; assert (s * l = s * i) by lia; apply Nat.mul_cancel_l in H0; lia). apply P1; auto; lia.
      * intros a Ha. rewrite mupd_neq by (apply Ha; auto). apply P2. intros l Hl. apply Ha. lia.
    + eexists. split; [reflexivity|]. split.
      * intros l Hl Kl. destruct (Nat.eq_dec l i) as [->|]; [congruence|]. apply P1; auto; lia.
      * intros a Ha. apply P2. intros l Hl. apply Ha. lia.
  - exists m'. destruct P. auto.
Qed.
Lemma scatter_ok : forall b s (x : vec T) m, 0 < s -> (forall l, l < SS -> al (b + s * l) = true) ->
  exists m', scatter SS T al b s x m = Ok m' /\
    (forall l, l < SS -> m' (b + s * l) = x l) /\ (forall a, (forall l, l < SS -> a <> b + s * l) -> m' a = m a).
Proof.
  intros b s x m Hs H. destruct (scatterm_ok b s (fun _ => true) x m Hs) as (m' & E & P1 & P2); [auto|]. exists m'. split; [exact E|]. split; auto.
Qed.
End S.

(** Loads: lane l is element l; a masked load touches selected lanes only and gives zero elsewhere. *)
Theorem C42_strided_load : forall SS T (O : Ops T) al v s m, 0 < SS -> strided v s -> aligned_ok SS v ->
  (forall l, l < SS -> al (vaddr SS v l) = true) ->
  exists x, vload SS T O al v m = Ok x /\ forall l, l < SS -> x l = m (vaddr SS v l).
Proof.
  intros SS T O al v s m HSS (af & b & [-> | ->]) A H; cbn [vload vaddr] in *.
  - destruct (Nat.eqb_spec s 1) as [->|].
    + rewrite simd_load_ok; auto.
      * eexists. split; [reflexivity|]. intros l Hl. rewrite Nat.mul_1_r. reflexivity.
      * intros ->. exact A.
      * intros l Hl. specialize (H l Hl). rewrite Nat.mul_1_r in H. auto.
    + destruct (gather_ok SS T O al HSS b s m) as (x & E & P); [intros l Hl; rewrite (Nat.mul_comm s); auto|]. exists x. split; auto. intros l Hl. rewrite P, (Nat.mul_comm s) by auto. auto.
  - destruct (gather_ok SS T O al HSS b s m) as (x & E & P); [intros l Hl; rewrite (Nat.mul_comm s); auto|]. exists x. split; auto. intros l Hl. rewrite P, (Nat.mul_comm s) by auto. auto.
Qed.
Theorem C42_strided_masked_load : forall SS T (O : Ops T) al v s mk m, 0 < SS -> strided v s ->
  (forall l, l < SS -> mk l = true -> al (vaddr SS v l) = true) ->
  exists x, vloadm SS T O al v mk m = Ok x /\ forall l, l < SS -> x l = if mk l then m (vaddr SS v l) else o0 O.
Proof.
  intros SS T O al v s mk m HSS (af & b & [-> | ->]) H; cbn [vloadm vaddr] in *.
  - destruct (Nat.eqb_spec s 1) as [->|].
    + rewrite simd_maskload_ok; auto.
      * eexists. split; [reflexivity|]. intros l Hl. cbv beta. rewrite Nat.mul_1_r. reflexivity.
      * intros l Hl K. specialize (H l Hl K). rewrite Nat.mul_1_r in H. auto.
    + destruct (gatherm_ok SS T O al HSS b s mk m) as (x & E & P); [intros l Hl K; rewrite (Nat.mul_comm s); auto|]. exists x. split; auto. intros l Hl. rewrite P, (Nat.mul_comm s) by auto. auto.
  - destruct (gatherm_ok SS T O al HSS b s mk m) as (x & E & P); [intros l Hl K; rewrite (Nat.mul_comm s); auto|]. exists x. split; auto. intros l Hl. rewrite P, (Nat.mul_comm s) by auto. auto.
Qed.
(** Stores write exactly the SS elements, in the order of the lanes (for a spacing of zero they would overlap). *)
Theorem C42_strided_store : forall SS T al v s x (m : mem T), 0 < SS -> 0 < s -> strided v s -> aligned_ok SS v ->
  (forall l, l < SS -> al (vaddr SS v l) = true) ->
  exists m', vstore SS T al v x m = Ok m' /\
    (forall l, l < SS -> m' (vaddr SS v l) = x l) /\ (forall a, (forall l, l < SS -> a <> vaddr SS v l) -> m' a = m a).
Proof.
  intros SS T al v s x m HSS Hs (af & b & [-> | ->]) A H; cbn [vstore vaddr] in *.
  - destruct (Nat.eqb_spec s 1) as [->|].
    + unfold simd_store. replace (af && negb (b mod SS =? 0)) with false by (destruct af; auto; cbn in A; rewrite A; reflexivity).
      replace (forallb (fun l => al (b + l)) (seq 0 SS)) with true.
      2:{ symmetry. apply forallb_forall. intros l Hl. apply in_seq in Hl. specialize (H l ltac:(lia)). rewrite Nat.mul_1_r in H. auto. }
      eexists. split; [reflexivity|]. split.
      * intros l Hl. rewrite Nat.mul_1_r. destruct (Nat.leb_spec b (b + l)), (Nat.ltb_spec (b + l) (b + SS)); try lia. cbn [andb]. f_equal. lia.
      * intros a Ha. destruct (Nat.leb_spec b a), (Nat.ltb_spec a (b + SS)); auto. exfalso. apply (Ha (a - b)); lia.
    + destruct (scatter_ok SS T al HSS b s x m Hs) as (m' & E & P1 & P2); [intros l Hl; rewrite (Nat.mul_comm s); auto|]. exists m'. split; auto.
      split; [intros l Hl; rewrite (Nat.mul_comm l); auto|]. intros a Ha. apply P2. intros l Hl. rewrite (Nat.mul_comm s). auto.
  - destruct (scatter_ok SS T al HSS b s x m Hs) as (m' & E & P1 & P2); [intros l Hl; rewrite (Nat.mul_comm s); auto|]. exists m'. split; auto.
    split; [intros l Hl; rewrite (Nat.mul_comm l); auto|]. intros a Ha. apply P2. intros l Hl. rewrite (Nat.mul_comm s). auto.
Qed.
(** Masked stores exist for a dynamic spacing or a static spacing other than one. *)
Theorem C42_strided_masked_store : forall SS T al v s x mk (m : mem T), 0 < SS -> 0 < s -> strided v s -> (forall af b, v = VStat s af b -> s <> 1) ->
  (forall l, l < SS -> mk l = true -> al (vaddr SS v l) = true) ->
  exists m', vstorem SS T al v x mk m = Ok m' /\
    (forall l, l < SS -> mk l = true -> m' (vaddr SS v l) = x l) /\ (forall a, (forall l, l < SS -> mk l = true -> a <> vaddr SS v l) -> m' a = m a).
Proof.
  intros SS T al v s x mk m HSS Hs ST N H.
  assert (V : exists b, vaddr SS v = (fun l => b + l * s) /\ vstorem SS T al v x mk m = scatterm SS T al b s x mk m).
  { destruct ST as (af & b & [-> | ->]); exists b; split; auto. cbn [vstorem]. destruct (Nat.eqb_spec s 1); auto. exfalso. apply (N af b); auto. }
  destruct V as (b & V & ->). rewrite V in *. destruct (scatterm_ok SS T al HSS b s mk x m Hs) as (m' & E & P1 & P2); [intros l Hl K; rewrite (Nat.mul_comm s); auto|].
  exists m'. split; auto. split; [intros l Hl K; rewrite (Nat.mul_comm l); auto|]. intros a Ha. apply P2. intros l Hl K. rewrite (Nat.mul_comm s). auto.
Qed.
(** Round trip through two different spacings. *)
Theorem C42_strided_copy : forall SS T (O : Ops T) al v s w s' m, 0 < SS -> 0 < s' -> strided v s -> strided w s' -> aligned_ok SS v -> aligned_ok SS w ->
  (forall l, l < SS -> al (vaddr SS v l) = true) -> (forall l, l < SS -> al (vaddr SS w l) = true) ->
  exists x m', vload SS T O al v m = Ok x /\ vstore SS T al w x m = Ok m' /\ forall l, l < SS -> m' (vaddr SS w l) = m (vaddr SS v l).
Proof.
  intros SS T O al v s w s' m HSS Hs SV SW AV AW LV LW.
  destruct (C42_strided_load SS T O al v s m) as (x & E & P); auto.
  destruct (C42_strided_store SS T al w s' x m) as (m' & E' & P1 & _); auto.
  exists x, m'. split; auto. split; auto. intros l Hl. rewrite P1, P by auto. auto.
Qed.
(** The unaligned pointer ~v reads and writes the same elements as v, from any address: no alignment is needed. *)
Theorem C42_strided_unaligned : forall SS T (O : Ops T) al v s x m, 0 < SS -> 0 < s -> strided v s -> (forall l, l < SS -> al (vaddr SS v l) = true) ->
  (exists y, vload SS T O al (vunalign SS v) m = Ok y /\ forall l, l < SS -> y l = m (vaddr SS v l)) /\
  (exists m', vstore SS T al (vunalign SS v) x m = Ok m' /\
     (forall l, l < SS -> m' (vaddr SS v l) = x l) /\ (forall a, (forall l, l < SS -> a <> vaddr SS v l) -> m' a = m a)).
Proof.
  intros SS T O al v s x m HSS Hs (af & b & Q) H.
  assert (V : strided (vunalign SS v) s /\ aligned_ok SS (vunalign SS v) /\ vaddr SS (vunalign SS v) = vaddr SS v).
  { destruct Q as [-> | ->]; cbn [vunalign vaddr]; repeat split.
    - exists false, b. auto.
    - destruct s as [|[|]]; exact I.
    - exists false, b. auto. }
  destruct V as (V1 & V2 & V3). split.
  - destruct (C42_strided_load SS T O al (vunalign SS v) s m) as (y & E & P); auto; rewrite ?V3 in *; eauto.
  - destruct (C42_strided_store SS T al (vunalign SS v) s x m) as (y & E & P); auto; rewrite ?V3 in *; eauto.
Qed.
(** An aligned pointer of spacing one at an odd address: undefined behaviour through v, elements 3..6 through ~v. *)
Example C42_strided_unaligned_example : let v := VStat 1 true 3 in
  vload 4 Z zops (fun _ => true) v (fun a => Z.of_nat a) = UB /\
  match vload 4 Z zops (fun _ => true) (vunalign 4 v) (fun a => Z.of_nat a) with Ok x => map x [0; 1; 2; 3] | _ => [] end = [3; 4; 5; 6]%Z.
Proof. split; reflexivity. Qed.
(** Four elements with distance 3 starting at 2, of a memory of 12: the last touched address is 11. *)
Example C42_strided_example : strided (VDyn 3 2) 3 /\ aligned_ok 4 (VDyn 3 2) /\ (forall l, l < 4 -> (fun a => a <? 12) (vaddr 4 (VDyn 3 2) l) = true) /\
  match vload 4 Z zops (fun a => a <? 12) (VDyn 3 2) (fun a => Z.of_nat a) with Ok x => map x (seq 0 4) = [2; 5; 8; 11]%Z | _ => False end.
Proof.
  split; [exists true, 2; auto|]. split; [exact I|]. split; [|vm_compute; reflexivity]. intros l Hl. apply Nat.ltb_lt. cbn [vaddr]. lia.
Qed.

(** Rows and columns of matrices as vectors: along the storage direction a load reads the next elements ... *)
Definition along (tf : tflag) (p : mptr) : Prop := match tf with columnVector => mp_so p = columnMajor | rowVector => mp_so p = rowMajor end.
Theorem C42_oriented_load : forall SS T (O : Ops T) al tf p i m, 0 < SS -> mptr_wf SS p -> along tf p -> (mp_kind p = Panel -> mp_base p mod SS = 0) -> i mod SS = 0 ->
  let ad l := match tf with columnVector => addr SS p (i + l) 0 | rowVector => addr SS p 0 (i + l) end in
  (forall l, l < SS -> al (ad l) = true) ->
  exists x, vload SS T O al (voff SS (VMat tf p) i) m = Ok x /\ forall l, l < SS -> x l = m (ad l).
Proof.
  intros SS T O al tf p i m HSS W A L Hi ad Hal. destruct (vload_ok SS HSS T O al (VMat tf p) i m) as (x & E & P); auto.
  - destruct tf; cbn in *; auto.
  - exists x. split; auto.
Qed.
(** ... and across it the load reports a logic error, which the vector pointer turns into termination of the program. *)
Theorem C42_cross_load : forall SS T (O : Ops T) al tf p mk m, ~ along tf p ->
  mp_loadt SS T al p tf m = Throw LogicError /\ mp_loadtm SS T O al p tf mk m = Throw LogicError /\
  vload SS T O al (VMat tf p) m = Terminate /\ vloadm SS T O al (VMat tf p) mk m = Terminate.
Proof.
  intros SS T O al tf p mk m A. unfold vload, vloadm, mp_loadt, mp_loadtm.
  assert (E : tflag_eqb tf (majorOrientation (mp_so p)) = false) by (unfold along in A; destruct tf, (mp_so p); auto; exfalso; auto).
  rewrite E. auto.
Qed.
(** The oriented load of a panel pointer that starts inside a panel does not follow the column into the next panel, load() does: rows 2, 3, 4, 5 of a column. *)
Theorem C42_oriented_panel_refuted : let p := MPtr Panel columnMajor false false 2 12 in let al := fun _ : nat => true in let m a := Z.of_nat a in
  match mp_load 4 Z zops al p m, mp_loadt 4 Z al p columnVector m with
  | Ok x, Ok y => map x [0; 1; 2; 3] = map (fun l => m (addr 4 p l 0)) [0; 1; 2; 3] /\ map y [2; 3] <> map (fun l => m (addr 4 p l 0)) [2; 3]
  | _, _ => False end.
Proof. cbv zeta. vm_compute. split; [reflexivity|discriminate]. Qed.
Example C42_oriented_example : let p := MPtr Panel columnMajor true true 0 12 in mptr_wf 4 p /\ along columnVector p /\ ~ along rowVector p /\ 4 mod 4 = 0 /\
  match vload 4 Z zops (fun _ => true) (voff 4 (VMat columnVector p) 4) (fun a => Z.of_nat a) with Ok x => map x [0; 1; 2; 3] | _ => [] end = [12; 13; 14; 15]%Z.
Proof. cbv zeta. split; [split; cbn; auto|]. split; [reflexivity|]. split; [discriminate|]. split; reflexivity. Qed.
