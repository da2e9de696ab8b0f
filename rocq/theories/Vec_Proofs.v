(** Vec_Proofs.v -- SIMD loads and stores through vector pointers; region writes as [writes]. *)
From Coq Require Import Arith Lia List Bool PeanoNat ZArith.
From Verif Require Import Base Base_Proofs Spec Layout_Model Layout_Proofs Simd_Model Simd_Proofs Reg_Model Reg_Proofs.
Import ListNotations.

Lemma region_writes : forall T (f : mem T -> res (mem T)) W P ad e, effect f W -> region W P ad e ->
  (forall i j i' j', P i j -> P i' j' -> ad i j = ad i' j' -> i = i' /\ j = j') ->
  writes f P ad e.
Proof.
  intros T f W P ad e E R Hinj m. destruct (region_result f W P ad e m E R Hinj) as (m' & X & Y & Z).
  exists m'. split; auto. split; auto.
Qed.

Section Vec.
Variable SS : nat.
Hypothesis HSS : 0 < SS.
Variable T : Type.
Variable O : Ops T.
Notation addr := (addr SS).
Notation poff := (poff SS).

(** Vector pointers whose SIMD loads are meaningful: matrix rows/columns along the storage order (panel pointers at
    a panel boundary), strided pointers (a statically unit-strided aligned one must be aligned). *)
Definition vptr_ok (v : vptr) : Prop :=
  match v with
  | VMat columnVector p => mptr_wf SS p /\ mp_so p = columnMajor /\ lane_ok SS p
  | VMat rowVector p => mptr_wf SS p /\ mp_so p = rowMajor /\ lane_ok SS p
  | VStat s af b => s = 1 -> af = true -> b mod SS = 0
  | VDyn _ _ => True
  end.

Lemma panel_aligned : forall p x y, mptr_wf SS p -> mp_so p = columnMajor -> mp_kind p = Panel -> mp_base p mod SS = 0 ->
  x mod SS = 0 -> addr p x y mod SS = 0.
Proof.
  intros [kd so af pf bs sp] x y [W1 W2] Hs Hk Hb Hx. cbn [mp_kind mp_so mp_base mp_sp mp_af] in *. subst.
  unfold Layout_Model.addr, ptr_offset. cbn [mp_kind mp_so mp_af mp_base mp_sp].
  rewrite Hb. replace (if af then 0 else 0) with 0 by (destruct af; auto). rewrite Nat.add_0_r, Nat.sub_0_r.
  specialize (W1 eq_refl). apply mod0_ex in W1; auto. apply mod0_ex in Hb; auto. apply mod0_ex in Hx; auto.
  destruct W1 as [qs ->], Hb as [qb ->], Hx as [qx ->].
  replace (SS * qx) with (SS * qx + 0) by lia. rewrite div_q, mod_q by lia.
  apply ex_mod0 with (qb + qx * qs + y); lia.
Qed.

Lemma lane_poff : forall p x y, mptr_wf SS p -> mp_so p = columnMajor -> lane_ok SS p -> x mod SS = 0 ->
  lane_ok SS (poff p x y).
Proof. intros p x y Hw Hs HL Hx K. cbn in K |- *. apply panel_aligned; auto. Qed.

Lemma lane_ptrans : forall p, lane_ok SS p -> lane_ok SS (ptrans SS p).
Proof. intros p H K. unfold ptrans. cbn [mp_base]. rewrite ptr_offset_00 by auto. apply H. exact K. Qed.

Lemma vload_ok : forall al v i m, vptr_ok v -> i mod SS = 0 ->
  (forall l, l < SS -> al (vaddr SS v (i + l)) = true) ->
  exists x, vload SS T O al (voff SS v i) m = Ok x /\ forall l, l < SS -> x l = m (vaddr SS v (i + l)).
Proof.
  intros al v i m Hv Hi Hal. destruct v as [tf p|s af b|s b].
  - assert (C : forall p, mptr_wf SS p -> mp_so p = columnMajor -> lane_ok SS p ->
       (forall l, l < SS -> al (addr p (i + l) 0) = true) ->
       exists x, vload SS T O al (VMat columnVector (poff p i 0)) m = Ok x /\ forall l, l < SS -> x l = m (addr p (i + l) 0)).
    { clear p Hv Hal. intros p Hw Hs HL Hal.
      assert (E : forall l, addr (poff p i 0) l 0 = addr p (i + l) 0).
      { intros l. rewrite addr_poff; auto. intros _ _. rewrite Hs. auto. }
      destruct (vload_col SS HSS T O al (poff p i 0) m) as (x & Ex & Hx).
      - apply poff_wf_cm; auto.
      - exact Hs.
      - apply lane_poff; auto.
      - intros l Hl. rewrite E. auto.
      - exists x. split; auto. intros l Hl. rewrite Hx, E; auto. }
    destruct tf; destruct Hv as (Hw & Hs & HL); cbn [vaddr] in Hal |- *.
    + (* row vector of a row-major pointer: as a column of the transposed pointer *)
      destruct (C (ptrans SS p)) as (x & Ex & Hx).
      * apply ptrans_wf; auto.
      * cbn. rewrite Hs. reflexivity.
      * apply lane_ptrans; auto.
      * intros l Hl. rewrite addr_ptrans by auto. auto.
      * exists x. split.
        -- rewrite <- Ex. cbn [voff vload]. f_equal. unfold mp_loadt. cbn [Layout_Model.poff ptrans mp_so mp_af mp_base].
           rewrite Hs. cbn [order_neg majorOrientation tflag_eqb]. f_equal.
           fold (poff p 0 i). change (addr p 0 i = addr (ptrans SS p) i 0). rewrite addr_ptrans by auto. reflexivity.
        -- intros l Hl. rewrite Hx by auto. rewrite addr_ptrans by auto. reflexivity.
    + cbn [voff]. apply C; auto.
  - cbn [voff vload vaddr] in *. destruct (Nat.eqb_spec s 1) as [->|N].
    + exists (fun l => m (b + i * 1 + l)). split.
      * apply simd_load_ok; [exact HSS| |].
        -- intros ->. cbn in Hv. specialize (Hv eq_refl eq_refl). rewrite Nat.mul_1_r.
           rewrite Nat.add_mod by lia. rewrite Hv, Hi. apply Nat.mod_0_l. lia.
        -- intros l Hl. replace (b + i * 1 + l) with (b + (i + l) * 1) by lia. auto.
      * intros l Hl. f_equal. lia.
    + unfold gather. destruct (gather_loop SS HSS T O al m (fun l => b + i * s + s * l)) as (x & Ex & Hx).
      * intros l Hl. replace (b + i * s + s * l) with (b + (i + l) * s) by lia. auto.
      * exists x. split; [exact Ex|]. intros l Hl. rewrite Hx by auto. f_equal. lia.
  - cbn [voff vload vaddr] in *. unfold gather. destruct (gather_loop SS HSS T O al m (fun l => b + i * s + s * l)) as (x & Ex & Hx).
    + intros l Hl. replace (b + i * s + s * l) with (b + (i + l) * s) by lia. auto.
    + exists x. split; [exact Ex|]. intros l Hl. rewrite Hx by auto. f_equal. lia.
Qed.

(** ger for arbitrary vector pointers. *)
Lemma reg_ger_vec_ok : forall al N RM cj f (ff : T -> T) a b m r,
  vptr_ok a ->
  (forall i, i < RM * SS -> al (vaddr SS a i) = true) ->
  (forall j, j < N -> cj j = true -> al (vaddr SS b j) = true) ->
  (forall v l, f v l = ff (v l)) ->
  exists r', (ax <- load_col SS T O al RM a f m ;; ger_update SS T O al N RM cj ax b m r) = Ok r' /\
    (forall i j, i < RM * SS -> j < N -> cj j = true ->
       reg_at SS T r' i j = ofma O (ff (m (vaddr SS a i))) (m (vaddr SS b j)) (reg_at SS T r i j)) /\
    (forall i j, i < RM * SS -> j < N -> cj j = false -> reg_at SS T r' i j = reg_at SS T r i j).
Proof.
  intros al N RM cj f ff a b m r Ha Hal Hb Hf.
  destruct (load_col_ok SS HSS T O al RM a f m (fun i => m (vaddr SS a i))) as (ax & E & P).
  - intros i Hi. destruct (vload_ok al a (i * SS) m Ha) as (x & Ex & Hx).
    + apply mult_mod0'; auto.
    + intros l Hl. apply Hal. nia.
    + exists x. split; auto. intros l Hl. rewrite Hx by auto. f_equal. f_equal. lia.
  - intros v w H l Hl. rewrite !Hf, H; auto.
  - rewrite E. simpl.
    apply (ger_update_ok SS HSS T O al N RM cj ax b m r (fun i => ff (m (vaddr SS a i))) (fun j => m (vaddr SS b j))).
    + intros i Hi l Hl. rewrite P, Hf by auto. reflexivity.
    + intros j Hj C. unfold rd. rewrite Hb by auto. reflexivity.
Qed.

End Vec.
