(** Ger_Proofs.v -- dense ger. *)
From Coq Require Import Arith Lia List Bool PeanoNat ZArith.
From Verif Require Import Base Base_Proofs Spec Algebra_Proofs Layout_Model Layout_Proofs Simd_Model Simd_Proofs
  Reg_Model Reg_Proofs Reg_Proofs2 Vec_Proofs Tile_Model Tile_Proofs Gemm_Model Gemm_Proofs Ger_Model.
Import ListNotations.

Lemma nextMultiple_sub : forall f i mm M, 0 < f -> i mod f = 0 -> i + mm <= M -> i + nextMultiple mm f <= nextMultiple M f.
Proof.
  intros f i mm M Hf Hi H. destruct (nextMultiple_spec M f Hf) as (A & B & C).
  apply mod0_ex in Hi; auto. apply mod0_ex in B; auto. destruct Hi as [q ->], B as [q' B]. rewrite B in *.
  assert (q <= q') by nia.
  assert (nextMultiple mm f <= f * (q' - q)) by (apply nextMultiple_least; [auto|nia|rewrite Nat.mul_comm; apply Nat.mod_mul; lia]).
  nia.
Qed.

Lemma up_block : forall f i n M, 0 < f -> i mod f = 0 -> n mod f = 0 -> i + n < M + f -> i + n <= nextMultiple M f.
Proof.
  intros f i n M Hf Hi Hn H. destruct (nextMultiple_spec M f Hf) as (A & B & C).
  apply mod0_ex in Hi; auto. apply mod0_ex in Hn; auto. apply mod0_ex in B; auto.
  destruct Hi as [q ->], Hn as [p ->], B as [z B]. rewrite B in *.
  assert (f * (q + p) < f * (z + 1)) by nia. assert (q + p < z + 1) by nia. nia.
Qed.

(** The result of a kernel at block (i0, j0) in terms of the whole matrix. *)
Lemma lift_block : forall T (adD adB : locations) i0 j0 (P Q : nat -> nat -> Prop) (e e' : nat -> nat -> T) m m',
  (forall x y, P x y -> adB x y = adD (i0 + x) (j0 + y)) ->
  (forall x y, P x y -> e' x y = e (i0 + x) (j0 + y)) ->
  (forall i j, Q i j <-> i0 <= i /\ j0 <= j /\ P (i - i0) (j - j0)) ->
  updated P adB e' m m' -> updated Q adD e m m'.
Proof.
  intros T adD adB i0 j0 P Q e e' m m' Ha He HQ [U1 U2]. split.
  - intros i j Hij. apply HQ in Hij. destruct Hij as (A & B & C).
    specialize (Ha _ _ C). specialize (He _ _ C). specialize (U1 _ _ C).
    replace (i0 + (i - i0)) with i in * by lia. replace (j0 + (j - j0)) with j in * by lia. congruence.
  - intros a Hn. apply U2. intros x y Hxy E. rewrite Ha in E by auto. apply (Hn (i0 + x) (j0 + y)); auto.
    apply HQ. replace (i0 + x - i0) with x by lia. replace (j0 + y - j0) with y by lia. repeat split; auto; lia.
Qed.

Section Ger.
Variable SS : nat.
Hypothesis HSS : 0 < SS.
Variable cc : nat.
Hypothesis Hcc : 0 < cc.
Variable T : Type.
Variable O : Ops T.
Notation addr := (addr SS).
Notation poff := (poff SS).
Notation reg_at := (reg_at SS T).
Notation readable := (readable SS).
Notation TS := (TS SS cc).

Lemma TS_pos : 0 < TS. Proof. unfold Ger_Model.TS. nia. Qed.
Lemma TS_mod : forall i, i mod TS = 0 -> i mod SS = 0.
Proof.
  intros i H. apply mod0_ex in H; [|apply TS_pos]. destruct H as [q ->]. unfold Ger_Model.TS.
  apply ex_mod0 with (cc * q); auto. lia.
Qed.

(** Vector pointers: element access through an offset pointer. *)
Definition vec_ok (v : vptr) : Prop := match v with VMat _ p => mptr_wf SS p | _ => True end.
Lemma vptr_vec_ok : forall v, vptr_ok SS v -> vec_ok v.
Proof. intros [[] p| |]; cbn; tauto. Qed.
Lemma vaddr_voff : forall v i k, vec_ok v -> i mod SS = 0 -> vaddr SS (voff SS v i) k = vaddr SS v (i + k).
Proof.
  intros [[] p|s af b|s b] i k Hv Hi; cbn [voff vaddr vec_ok] in *; try lia.
  - rewrite addr_poff; auto. intros _ _. destruct (mp_so p); [exact Hi|apply Nat.mod_0_l; lia].
  - rewrite addr_poff; auto. intros _ _. destruct (mp_so p); [apply Nat.mod_0_l; lia|exact Hi].
Qed.
Lemma vptr_ok_voff : forall v i, vptr_ok SS v -> i mod SS = 0 -> vptr_ok SS (voff SS v i).
Proof.
  intros [[] p|s af b|s b] i Hv Hi; cbn [voff vptr_ok] in *; auto.
  - destruct Hv as (W & S & L). split; [|split]; auto.
    + apply poff_wf; auto. rewrite S. auto.
    + assert (X : lane_ok SS (poff (ptrans SS p) i 0)).
      { apply lane_poff; auto; [apply ptrans_wf; auto|cbn; rewrite S; auto|apply lane_ptrans; auto]. }
      intros K. specialize (X K). cbn in X |- *. fold (addr (ptrans SS p) i 0) in X. change (addr (ptrans SS p) i 0 mod SS = 0) in X.
      rewrite addr_ptrans in X by auto. exact X.
  - destruct Hv as (W & S & L). split; [apply poff_wf_cm; auto|split]; auto. apply lane_poff; auto.
  - intros -> A. specialize (Hv eq_refl A). rewrite Nat.mul_1_r, Nat.add_mod, Hv, Hi by lia. apply Nat.mod_0_l. lia.
Qed.

Definition ger_elem (alpha x y a : T) : T := ofma O (omul O alpha x) y (omul O (o1 O) a).

Lemma ger_call_ok : forall al M N alpha x y A B m0,
  vptr_ok SS x -> vec_ok y ->
  mptr_wf SS A -> mp_so A = columnMajor -> lane_ok SS A ->
  mptr_wf SS B -> mp_so B = columnMajor -> store_ok B ->
  (forall i, i < nextMultiple M TS -> al (vaddr SS x i) = true) -> (forall j, j < N -> al (vaddr SS y j) = true) ->
  readable al A (if mp_af A && mp_pf A then nextMultiple M SS else M) N -> readable al B M N ->
  distinct M N (addr B) ->
  forall c m, In c (tile TS TS columnMajor M N) ->
  (forall k, k_i c + k < M -> m (vaddr SS x (k_i c + k)) = m0 (vaddr SS x (k_i c + k))) ->
  (forall k, k_j c + k < N -> m (vaddr SS y (k_j c + k)) = m0 (vaddr SS y (k_j c + k))) ->
  (forall u v, u < k_m c -> v < k_nn c -> m (addr A (k_i c + u) (k_j c + v)) = m0 (addr A (k_i c + u) (k_j c + v))) ->
  exists m', ger_call SS cc T O al alpha x y A B c m = Ok m' /\
    updated (in_call c) (addr B)
      (fun i j => ger_elem alpha (m0 (vaddr SS x i)) (m0 (vaddr SS y j)) (m0 (addr A i j))) m m'.
Proof.
  intros al M N alpha x y A B m0 Hx Hy Hwa Hsa HL Hwb Hsb Hst Rx Ry Ra Rb Hd c m Hc HX HY HA.
  pose proof TS_pos as HT.
  destruct (tile_ok_disj_cover TS HT TS HT columnMajor M N) as (TA & _ & _).
  specialize (TA c Hc).
    destruct TA as (T1 & T2 & (q & T3) & (q' & T4) & T5 & T6 & T7 & T8 & T9 & T10 & T11).
    set (i0 := k_i c) in *. set (j0 := k_j c) in *.
    assert (Hi1 : i0 mod TS = 0) by (apply ex_mod0 with q; lia).
    assert (Hi0 : i0 mod SS = 0) by (apply TS_mod; auto).
    assert (Hj0 : j0 mod SS = 0) by (apply TS_mod; apply ex_mod0 with q'; auto; lia).
    assert (ERM : k_rm c * cc * SS = k_rm c * TS) by (unfold Ger_Model.TS; lia).
    assert (EA : forall x y, addr (poff A i0 j0) x y = addr A (i0 + x) (j0 + y)).
    { intros. rewrite addr_poff; auto. intros _ _. rewrite Hsa. auto. }
    assert (EB : forall x y, addr (poff B i0 j0) x y = addr B (i0 + x) (j0 + y)).
    { intros. rewrite addr_poff; auto. intros _ _. rewrite Hsb. auto. }
    assert (EX : forall k, vaddr SS (voff SS x i0) k = vaddr SS x (i0 + k)) by (intros; apply vaddr_voff; auto using vptr_vec_ok).
    assert (EY : forall k, vaddr SS (voff SS y j0) k = vaddr SS y (j0 + k)) by (intros; apply vaddr_voff; auto).
    assert (Hup : i0 + k_rm c * TS <= nextMultiple M TS).
    { apply up_block; auto. apply Nat.mod_mul. lia. }
    assert (WA : mptr_wf SS (poff A i0 j0)) by (apply poff_wf_cm; auto).
    assert (WB : mptr_wf SS (poff B i0 j0)) by (apply poff_wf_cm; auto).
    assert (LA : lane_ok SS (poff A i0 j0)) by (apply lane_poff; auto).
    assert (VX : vptr_ok SS (voff SS x i0)) by (apply vptr_ok_voff; auto).
    assert (DB : forall mm nn, i0 + mm <= M -> j0 + nn <= N -> distinct mm nn (addr (poff B i0 j0))).
    { intros mm nn Hm Hn u v u' v' Hu Hv Hu' Hv' X. rewrite !EB in X. apply Hd in X; lia. }
    unfold ger_call. cbv zeta. fold i0 j0. destruct (k_full c) eqn:F.
    + assert (X : k_m c = k_rm c * TS /\ k_nn c = k_n c) by tauto. destruct X as [X1 X2].
      destruct (reg_loadb_ok SS HSS T O al (k_n c) (k_rm c * cc) (o1 O) (poff A i0 j0) m (reg0 T O) WA Hsa) as (r1 & E1 & P1).
      { intros u v Hu Hv. rewrite EA. apply Ra; [|lia].
        destruct (nextMultiple_spec M SS HSS) as (NA & _ & _). destruct (mp_af A && mp_pf A); lia. }
      rewrite E1. cbn [bind]. unfold reg_ger_alpha.
      destruct (reg_ger_vec_ok SS HSS T O al (k_n c) (k_rm c * cc) always (fun x : vec T => vmul T O (vbroadcast T alpha) x) (fun x => omul O alpha x)
        (voff SS x i0) (voff SS y j0) m r1) as (r2 & E2 & P2 & _); auto.
      { intros i Hi. rewrite EX. apply Rx. lia. }
      { intros j Hj _. rewrite EY. apply Ry. lia. }
      rewrite E2. cbn [bind].
      destruct (reg_store_region SS HSS T al (k_n c) (k_rm c * cc) (poff B i0 j0) r2 WB Hsb Hst) as (W & E & R).
      { intros u v Hu Hv. rewrite EB. apply Rb; lia. }
      destruct (region_writes T _ W _ _ _ E R) with (m := m) as (m' & Em & U).
      { intros i j i' j' [] [] X. apply (DB (k_rm c * cc * SS) (k_n c)); auto; lia. }
      exists m'. split; [exact Em|].
      apply (lift_block T (addr B) (addr (poff B i0 j0)) i0 j0 (fun i j => i < k_rm c * cc * SS /\ j < k_n c) (in_call c) _ (reg_at r2)); auto.
      * intros u v [Hu Hv]. rewrite P2, P1 by auto. unfold ger_elem. rewrite EX, EY, EA, HX, HY, HA by lia. reflexivity.
      * intros i j. unfold in_call. fold i0 j0. lia.
    + destruct (reg_loadb_mn_ok SS HSS T O al (k_n c) (k_rm c * cc) (o1 O) (poff A i0 j0) (k_m c) (k_nn c) m (reg0 T O) WA Hsa LA) as (r1 & E1 & P1 & _).
      { lia. }
      { change (mp_af (poff A i0 j0)) with (mp_af A). change (mp_pf (poff A i0 j0)) with (mp_pf A).
        pose proof (nextMultiple_sub SS i0 (k_m c) M HSS Hi0 T7) as NS.
        destruct (mp_af A && mp_pf A); intros u v Hu Hv; rewrite EA; apply Ra; lia. }
      rewrite E1. cbn [bind]. unfold reg_ger_alpha_mn.
      destruct (reg_ger_vec_ok SS HSS T O al (k_n c) (k_rm c * cc) (fun j => j <? k_nn c) (fun x : vec T => vmul T O (vbroadcast T alpha) x) (fun x => omul O alpha x)
        (voff SS x i0) (voff SS y j0) m r1) as (r2 & E2 & P2 & _); auto.
      { intros i Hi. rewrite EX. apply Rx. lia. }
      { intros j Hj Cj. apply Nat.ltb_lt in Cj. rewrite EY. apply Ry. lia. }
      rewrite E2. cbn [bind].
      destruct (reg_store_mn_region SS HSS T al (k_n c) (k_rm c * cc) (poff B i0 j0) r2 WB Hsb Hst (k_m c) (k_nn c)) as (W & E & R); try lia.
      { intros u v Hu Hv. rewrite EB. apply Rb; lia. }
      destruct (region_writes T _ W _ _ _ E R) with (m := m) as (m' & Em & U).
      { intros i j i' j' [] [] X. apply (DB (k_m c) (k_nn c)); auto; lia. }
      exists m'. split; [exact Em|].
      apply (lift_block T (addr B) (addr (poff B i0 j0)) i0 j0 (fun i j => i < k_m c /\ j < k_nn c) (in_call c) _ (reg_at r2)); auto.
      * intros u v [Hu Hv]. rewrite P2, P1 by (try lia; apply Nat.ltb_lt; lia). unfold ger_elem. rewrite EX, EY, EA, HX, HY, HA by lia. reflexivity.
      * intros i j. unfold in_call. fold i0 j0. lia.
Qed.

Lemma ger_ptr_ok : forall al M N alpha x y A B m0,
  vptr_ok SS x -> vec_ok y ->
  mptr_wf SS A -> mp_so A = columnMajor -> lane_ok SS A ->
  mptr_wf SS B -> mp_so B = columnMajor -> store_ok B ->
  (forall i, i < nextMultiple M TS -> al (vaddr SS x i) = true) -> (forall j, j < N -> al (vaddr SS y j) = true) ->
  readable al A (if mp_af A && mp_pf A then nextMultiple M SS else M) N -> readable al B M N ->
  distinct M N (addr B) ->
  (forall i j k, i < M -> j < N -> k < M -> addr B i j <> vaddr SS x k) ->
  (forall i j k, i < M -> j < N -> k < N -> addr B i j <> vaddr SS y k) ->
  (forall i j i' j', block M N i j -> block M N i' j' -> addr B i j = addr A i' j' -> i = i' /\ j = j') ->
  exists m', ger_ptr SS cc T O al M N alpha x y A B m0 = Ok m' /\
    updated (block M N) (addr B)
      (fun i j => ger_elem alpha (m0 (vaddr SS x i)) (m0 (vaddr SS y j)) (m0 (addr A i j))) m0 m'.
Proof.
  intros al M N alpha x y A B m0 Hx Hy Hwa Hsa HL Hwb Hsb Hst Rx Ry Ra Rb Hd Sx Sy SC.
  unfold ger_ptr. rewrite Hsa, Hsb. cbn [order_eqb andb negb].
  pose proof TS_pos as HT.
  destruct (tile_ok_disj_cover TS HT TS HT columnMajor M N) as (TA & TB & TC).
  apply (tiled call T _ _ in_call (block M N) (addr B)).
  - intros c i j Hc Hij. apply TA in Hc. unfold call_ok, in_call, block in *. lia.
  - intros i j [Hi Hj]. apply TC; auto.
  - intros i j i' j' [] [] X. apply Hd; auto.
  - eapply FOP_impl; [|exact TB]. intros c d X i j Y Z. apply (X i j); auto.
  - intros c m Hc Hag. specialize (TA c Hc). unfold call_ok in TA. apply (ger_call_ok al M N); auto.
    + intros k Hk. apply Hag. intros i j [Hi Hj] _ X. apply (Sx i j (k_i c + k)); auto.
    + intros k Hk. apply Hag. intros i j [Hi Hj] _ X. apply (Sy i j (k_j c + k)); auto.
    + intros u v Hu Hv. apply Hag. intros i j Hij Hn X.
      destruct (SC i j (k_i c + u) (k_j c + v)) as [-> ->]; auto. split; lia.
      apply Hn. unfold in_call. lia.
Qed.
End Ger.
