(** Layout_Proofs.v -- proofs about storage layout, pointers and views. *)
From Coq Require Import Arith Lia List Bool PeanoNat NArith ZArith.
From Verif Require Import Base Base_Proofs Layout_Model.
Import ListNotations.

(** ** Division helpers *)
Lemma dm : forall a b, 0 < b -> a = b * (a / b) + a mod b /\ a mod b < b.
Proof. intros. split; [apply Nat.div_mod; lia | apply Nat.mod_upper_bound; lia]. Qed.

Lemma div_q : forall b q r, r < b -> (b * q + r) / b = q.
Proof. intros. symmetry. apply Nat.div_unique with r; lia. Qed.

Lemma mod_q : forall b q r, r < b -> (b * q + r) mod b = r.
Proof. intros. symmetry. apply Nat.mod_unique with q; lia. Qed.

Lemma mod0_ex : forall a b, 0 < b -> a mod b = 0 -> exists q, a = b * q.
Proof. intros a b Hb H. exists (a / b). pose proof (dm a b Hb). lia. Qed.

Lemma ex_mod0 : forall a b q, 0 < b -> a = b * q -> a mod b = 0.
Proof. intros. subst. rewrite Nat.mul_comm. apply Nat.mod_mul. lia. Qed.

(** Decompose [a] as [b*q+r] with fresh q, r. *)
Ltac decomp a b q r :=
  let H := fresh "D" in
  assert (H : exists q r, a = b * q + r /\ r < b)
    by (exists (a / b), (a mod b); apply dm; lia);
  destruct H as (q & r & ?H & ?H).

(** ** nextMultiple *)
Lemma nextMultiple_spec : forall v f, 0 < f ->
  v <= nextMultiple v f /\ nextMultiple v f mod f = 0 /\ nextMultiple v f < v + f.
Proof.
  intros v f Hf. unfold nextMultiple. destruct (dm v f Hf) as [E L].
  set (q := v / f) in *. set (r := v mod f) in *.
  destruct (Nat.eq_dec r 0) as [Z|Z].
  - rewrite Z, Nat.sub_0_r, Nat.mod_same by lia. repeat split; try lia.
    rewrite Nat.add_0_r. exact Z.
  - rewrite (Nat.mod_small (f - r) f) by lia. repeat split; try lia.
    apply ex_mod0 with (q + 1); lia.
Qed.

Lemma nextMultiple_least : forall v f k, 0 < f -> v <= k -> k mod f = 0 -> nextMultiple v f <= k.
Proof.
  intros v f k Hf Hk Hm. destruct (nextMultiple_spec v f Hf) as (A & B & C).
  apply mod0_ex in Hm; auto. apply mod0_ex in B; auto.
  destruct Hm as [a ->]. destruct B as [b E].
  assert (b < a + 1); [|rewrite E; apply Nat.mul_le_mono_l; lia].
  apply Nat.mul_lt_mono_pos_l with f; lia.
Qed.

Lemma nextMultiple_id : forall v f, 0 < f -> v mod f = 0 -> nextMultiple v f = v.
Proof.
  intros. destruct (nextMultiple_spec v f) as (A & B & C); auto.
  pose proof (nextMultiple_least v f v ltac:(auto) ltac:(auto) ltac:(auto)). lia.
Qed.

Lemma nextMultiple64_eq : forall v f : N,
  (0 < f < W64)%N -> (v + f <= W64)%N ->
  nextMultiple64 v f = N.of_nat (nextMultiple (N.to_nat v) (N.to_nat f)).
Proof.
  intros v f [Hf Hf2] Hv. unfold nextMultiple64, nextMultiple.
  rewrite Nat2N.inj_add, N2Nat.id.
  assert (Hr : (v mod f < f)%N) by (apply N.mod_lt; lia).
  replace (f + W64 - v mod f)%N with ((f - v mod f) + 1 * W64)%N by lia.
  rewrite N.mod_add by (intro E; vm_compute in E; discriminate E).
  rewrite (N.mod_small (f - v mod f) W64)
    by (apply N.le_lt_trans with f; [apply N.le_sub_l | assumption]).
  assert (Hq : ((f - v mod f) mod f < f)%N) by (apply N.mod_lt; lia).
  rewrite N.mod_small
    by (apply N.lt_le_trans with (v + f)%N; [apply N.add_lt_mono_l|]; assumption).
  f_equal.
  apply N2Nat.inj. rewrite Nat2N.id.
  rewrite !N2Nat.inj_mod, N2Nat.inj_sub, N2Nat.inj_mod by lia. reflexivity.
Qed.

Section Layout.
Variable SS : nat.
Hypothesis HSS : 0 < SS.

(* ---------------------------------------------------------------- containers *)
Lemma panel_index_inj : forall sp cols i j i' j',
  sp = SS * cols -> j < cols -> j' < cols ->
  i / SS * sp + i mod SS + j * SS = i' / SS * sp + i' mod SS + j' * SS -> i = i' /\ j = j'.
Proof.
  intros sp cols i j i' j' -> Hj Hj' E.
  destruct (dm i SS HSS) as [E1 L1]. destruct (dm i' SS HSS) as [E2 L2].
  set (q := i / SS) in *. set (r := i mod SS) in *.
  set (q' := i' / SS) in *. set (r' := i' mod SS) in *.
  assert (F : SS * (q * cols + j) + r = SS * (q' * cols + j') + r') by lia.
  assert (R : r = r') by (rewrite <- (mod_q SS (q * cols + j) r L1), F; apply mod_q; auto).
  assert (Q : cols * q + j = cols * q' + j').
  { assert (q * cols + j = q' * cols + j')
      by (rewrite <- (div_q SS (q * cols + j) r L1), F; apply div_q; auto). lia. }
  assert (q = q') by (rewrite <- (div_q cols q j Hj), Q; apply div_q; auto).
  assert (j = j') by nia. split; nia.
Qed.

Lemma c_index_inj : forall c i j i' j',
  i < c_rows c -> j < c_cols c -> i' < c_rows c -> j' < c_cols c ->
  c_index SS c i j = c_index SS c i' j' -> i = i' /\ j = j'.
Proof.
  intros c i j i' j' Hi Hj Hi' Hj'. unfold c_index, c_spacing.
  destruct (c_kind c), (c_so c); intros E.
  - destruct (nextMultiple_spec (c_cols c) SS HSS) as (A & _ & _).
    set (sp := nextMultiple (c_cols c) SS) in *.
    assert (F : sp * i + j = sp * i' + j') by lia.
    assert (i = i') by (rewrite <- (div_q sp i j ltac:(lia)), F; apply div_q; lia).
    subst; split; auto; lia.
  - destruct (nextMultiple_spec (c_rows c) SS HSS) as (A & _ & _).
    set (sp := nextMultiple (c_rows c) SS) in *.
    assert (F : sp * j + i = sp * j' + i') by lia.
    assert (j = j') by (rewrite <- (div_q sp j i ltac:(lia)), F; apply div_q; lia).
    subst; split; auto; lia.
  - destruct (panel_index_inj (SS * c_rows c) (c_rows c) j i j' i'); auto.
  - destruct (panel_index_inj (SS * c_cols c) (c_cols c) i j i' j'); auto.
Qed.

Lemma tiles_bound : forall n i, i < n -> i / SS < n / SS + (if 0 <? n mod SS then 1 else 0).
Proof.
  intros n i H. destruct (dm n SS HSS) as [E1 L1]. destruct (dm i SS HSS) as [E2 L2].
  destruct (Nat.ltb_spec 0 (n mod SS)); nia.
Qed.

Lemma panel_index_bound : forall cols n i j t,
  j < cols -> i / SS < t -> i < n ->
  i / SS * (SS * cols) + i mod SS + j * SS < t * (SS * cols).
Proof.
  intros cols n i j t Hj Ht Hi. destruct (dm i SS HSS) as [E1 L1].
  set (q := i / SS) in *. set (r := i mod SS) in *.
  assert (q * cols + j + 1 <= t * cols) by nia. nia.
Qed.

Lemma c_index_bound : forall c i j,
  i < c_rows c -> j < c_cols c -> c_index SS c i j < c_capacity SS c.
Proof.
  intros c i j Hi Hj. unfold c_index, c_capacity, c_spacing.
  destruct (c_kind c), (c_so c).
  - destruct (nextMultiple_spec (c_cols c) SS HSS) as (A & _ & _). nia.
  - destruct (nextMultiple_spec (c_rows c) SS HSS) as (A & _ & _). nia.
  - destruct (c_static c).
    + apply panel_index_bound with (c_cols c); auto. apply tiles_bound; auto.
    + rewrite (Nat.mul_comm _ (nextMultiple _ _)). apply panel_index_bound with (c_cols c); auto.
      destruct (nextMultiple_spec (c_cols c) SS HSS) as (A & _ & _).
      destruct (dm j SS HSS). nia.
  - destruct (c_static c).
    + apply panel_index_bound with (c_rows c); auto. apply tiles_bound; auto.
    + rewrite (Nat.mul_comm _ (nextMultiple _ _)). apply panel_index_bound with (c_rows c); auto.
      destruct (nextMultiple_spec (c_rows c) SS HSS) as (A & _ & _).
      destruct (dm i SS HSS). nia.
Qed.

(** The allocated buffer also contains the padding rows (columns) of every column (row). *)
Lemma c_index_bound_pad : forall c i j,
  match c_so c with
  | columnMajor => i < nextMultiple (c_rows c) SS /\ j < c_cols c
  | rowMajor => i < c_rows c /\ j < nextMultiple (c_cols c) SS
  end -> c_index SS c i j < c_capacity SS c.
Proof.
  intros c i j. unfold c_index, c_capacity, c_spacing.
  assert (tb : forall n i, i < nextMultiple n SS -> i / SS < n / SS + (if 0 <? n mod SS then 1 else 0)).
  { intros n x H. destruct (dm n SS HSS) as [E1 L1]. destruct (dm x SS HSS) as [E2 L2].
    assert (EN : nextMultiple n SS = SS * (n / SS + (if 0 <? n mod SS then 1 else 0))).
    2: { rewrite EN in H. nia. }
    unfold nextMultiple. destruct (Nat.ltb_spec 0 (n mod SS)).
    - rewrite (Nat.mod_small (SS - n mod SS)) by lia. nia.
    - replace (n mod SS) with 0 by lia. rewrite Nat.sub_0_r, Nat.mod_same by lia. nia. }
  destruct (c_kind c), (c_so c); intros [Hi Hj].
  - nia.
  - nia.
  - destruct (c_static c).
    + apply panel_index_bound with (nextMultiple (c_cols c) SS); auto.
    + rewrite (Nat.mul_comm _ (nextMultiple _ _)). apply panel_index_bound with (nextMultiple (c_cols c) SS); auto.
      destruct (dm j SS HSS). nia.
  - destruct (c_static c).
    + apply panel_index_bound with (nextMultiple (c_rows c) SS); auto.
    + rewrite (Nat.mul_comm _ (nextMultiple _ _)). apply panel_index_bound with (nextMultiple (c_rows c) SS); auto.
      destruct (dm i SS HSS). nia.
Qed.

Lemma c_spacing_mod : forall c, c_spacing SS c mod SS = 0.
Proof.
  intros c. unfold c_spacing. destruct (c_kind c), (c_so c);
    try (apply nextMultiple_spec; auto).
  - rewrite Nat.mul_comm; apply Nat.mod_mul; lia.
  - rewrite Nat.mul_comm; apply Nat.mod_mul; lia.
Qed.

(* ---------------------------------------------------------------- pointers *)
(** Representation invariant of a matrix pointer. *)
Definition mptr_wf (p : mptr) : Prop :=
  (mp_kind p = Panel -> mp_sp p mod SS = 0) /\
  (mp_af p = true -> mp_base p mod SS = 0 /\ mp_sp p mod SS = 0).

(** Offset along which SIMD lanes run must be a multiple of SS for aligned panel pointers. *)
Definition major_ok (p : mptr) (i j : nat) : Prop :=
  mp_kind p = Panel -> mp_af p = true ->
  (match mp_so p with columnMajor => i | rowMajor => j end) mod SS = 0.

Lemma addr_00 : forall p, addr SS p 0 0 = mp_base p.
Proof.
  intros [k so af pf b sp]. unfold addr, ptr_offset; cbn [mp_kind mp_so mp_af mp_base mp_sp].
  destruct k, so; try lia.
  - destruct af; cbn [Nat.add].
    + rewrite Nat.div_small, Nat.mod_small by lia. lia.
    + destruct (dm b SS HSS) as [Eb Lb]. rewrite (Nat.div_small (b mod SS)), (Nat.mod_small (b mod SS)) by lia. lia.
  - destruct af; cbn [Nat.add].
    + rewrite Nat.div_small, Nat.mod_small by lia. lia.
    + destruct (dm b SS HSS) as [Eb Lb]. rewrite (Nat.div_small (b mod SS)), (Nat.mod_small (b mod SS)) by lia. lia.
Qed.

Lemma ptr_offset_00 : forall k so af b sp, ptr_offset SS k so af b sp 0 0 = b.
Proof. intros. exact (addr_00 (MPtr k so af true b sp)). Qed.

(** Composition core for the panel layout: x is the offset along the panel's contiguous direction. *)
Lemma panel_comp : forall sp x k,
  (x + k) / SS * sp + (x + k) mod SS =
  x / SS * sp + ((k + x mod SS) / SS * sp + (k + x mod SS) mod SS).
Proof.
  intros sp x k.
  destruct (dm x SS HSS) as [E1 L1]. set (q := x / SS) in *. set (r := x mod SS) in *.
  destruct (dm (k + r) SS HSS) as [E2 L2]. set (q2 := (k + r) / SS) in *. set (r2 := (k + r) mod SS) in *.
  replace (x + k) with (SS * (q + q2) + r2) by lia.
  rewrite div_q, mod_q by auto. lia.
Qed.

Lemma poff_wf : forall p i j, mptr_wf p ->
  (mp_af p = true -> (match mp_so p with columnMajor => i | rowMajor => j end) mod SS = 0) ->
  mptr_wf (poff SS p i j).
Proof.
  intros [k so af pf b sp] i j [H1 H2] Hm. unfold mptr_wf, poff, addr, ptr_offset in *.
  cbn [mp_kind mp_so mp_af mp_base mp_sp mp_pf] in *. split; auto.
  intros E. specialize (H2 E). specialize (Hm E). destruct H2 as [Hb Hs]. split; auto.
  apply mod0_ex in Hb; auto. apply mod0_ex in Hs; auto. apply mod0_ex in Hm; auto.
  destruct Hb as [qb ->]. destruct Hs as [qs ->]. destruct Hm as [qm Em].
  rewrite E. destruct k, so; subst.
  - apply ex_mod0 with (qb + qs * i + qm); lia.
  - apply ex_mod0 with (qb + qm + qs * j); lia.
  - rewrite Nat.add_0_r, Nat.sub_0_r.
    replace (SS * qm) with (SS * qm + 0) by lia. rewrite div_q, mod_q by lia.
    apply ex_mod0 with (qb + i + qm * qs); nia.
  - rewrite Nat.add_0_r, Nat.sub_0_r.
    replace (SS * qm) with (SS * qm + 0) by lia. rewrite div_q, mod_q by lia.
    apply ex_mod0 with (qb + qm * qs + j); nia.
Qed.

Lemma addr_poff : forall p i j k l, mptr_wf p -> major_ok p i j ->
  addr SS (poff SS p i j) k l = addr SS p (i + k) (j + l).
Proof.
  intros [kd so af pf b sp] i j k l [H1 H2] Hm. unfold major_ok, poff, addr, ptr_offset in *.
  cbn [mp_kind mp_so mp_af mp_base mp_sp mp_pf] in *.
  destruct kd; [destruct so; lia|].
  specialize (H1 eq_refl). apply mod0_ex in H1; auto. destruct H1 as [qs Es].
  destruct af.
  - specialize (H2 eq_refl). destruct H2 as [Hb _]. apply mod0_ex in Hb; auto. destruct Hb as [qb Eb].
    specialize (Hm eq_refl eq_refl). destruct so.
    + rewrite !Nat.add_0_r, !Nat.sub_0_r.
      pose proof (panel_comp sp j l) as P. rewrite Hm, Nat.add_0_r in P.
      rewrite Hm. lia.
    + rewrite !Nat.add_0_r, !Nat.sub_0_r.
      pose proof (panel_comp sp i k) as P. rewrite Hm, Nat.add_0_r in P.
      rewrite Hm. lia.
  - clear H2 Hm. destruct (dm b SS HSS) as [Eb Lb]. set (qb := b / SS) in *. set (rem := b mod SS) in *.
    replace (b - rem) with (SS * qb) by lia. destruct so.
    + pose proof (panel_comp sp (j + rem) l) as P.
      destruct (dm (j + rem) SS HSS) as [Ej Lj]. set (q := (j + rem) / SS) in *. set (r := (j + rem) mod SS) in *.
      assert (EB : SS * qb + i * SS + q * sp + r = SS * (qb + i + q * qs) + r) by (subst sp; lia).
      rewrite EB, mod_q by auto.
      replace (SS * (qb + i + q * qs) + r - r) with (SS * (qb + i + q * qs)) by lia.
      replace (j + l + rem) with (j + rem + l) by lia.
      transitivity (SS * (qb + i + q * qs) + ((l + r) / SS * sp + (l + r) mod SS) + k * SS); [lia|].
      transitivity (SS * qb + ((j + rem + l) / SS * sp + (j + rem + l) mod SS) + (i + k) * SS); [|lia].
      rewrite P. subst sp. lia.
    + pose proof (panel_comp sp (i + rem) k) as P.
      destruct (dm (i + rem) SS HSS) as [Ej Lj]. set (q := (i + rem) / SS) in *. set (r := (i + rem) mod SS) in *.
      assert (EB : SS * qb + q * sp + r + j * SS = SS * (qb + j + q * qs) + r) by (subst sp; lia).
      rewrite EB, mod_q by auto.
      replace (SS * (qb + j + q * qs) + r - r) with (SS * (qb + j + q * qs)) by lia.
      replace (i + k + rem) with (i + rem + k) by lia.
      transitivity (SS * (qb + j + q * qs) + ((k + r) / SS * sp + (k + r) mod SS) + l * SS); [lia|].
      transitivity (SS * qb + ((i + rem + k) / SS * sp + (i + rem + k) mod SS) + (j + l) * SS); [|lia].
      rewrite P. subst sp. lia.
Qed.

(** ~p denotes the same matrix. *)
Lemma addr_punalign : forall p i j, mptr_wf p -> addr SS (punalign SS p) i j = addr SS p i j.
Proof.
  intros [kd so af pf b sp] i j [H1 H2]. unfold punalign, addr.
  cbn [mp_kind mp_so mp_af mp_base mp_sp mp_pf] in *.
  assert (E0 : ptr_offset SS kd so false b sp 0 0 = b).
  { apply (addr_00 (MPtr kd so false pf b sp)). }
  rewrite E0. destruct af; auto. destruct (H2 eq_refl) as [Hb _].
  unfold ptr_offset. rewrite Hb. destruct kd; auto.
Qed.

(** p.trans() denotes the transposed matrix. *)
Lemma addr_ptrans : forall p i j, addr SS (ptrans SS p) i j = addr SS p j i.
Proof.
  intros [kd so af pf b sp] i j. unfold ptrans, addr.
  cbn [mp_kind mp_so mp_af mp_base mp_sp mp_pf] in *.
  assert (E0 : ptr_offset SS kd (order_neg so) af b sp 0 0 = b).
  { apply (addr_00 (MPtr kd (order_neg so) af pf b sp)). }
  rewrite E0. unfold ptr_offset. destruct kd, so; cbn [order_neg]; lia.
Qed.

Lemma punalign_wf : forall p, mptr_wf p -> mptr_wf (punalign SS p).
Proof.
  intros p [H1 H2]. split; cbn [punalign mp_kind mp_af mp_sp]; auto. discriminate.
Qed.

Lemma ptrans_wf : forall p, mptr_wf p -> mptr_wf (ptrans SS p).
Proof.
  intros [kd so af pf b sp] [H1 H2]. unfold mptr_wf, ptrans in *.
  cbn [mp_kind mp_so mp_af mp_base mp_sp mp_pf] in *. split; auto.
  assert (E0 : ptr_offset SS kd (order_neg so) af b sp 0 0 = b).
  { apply (addr_00 (MPtr kd (order_neg so) af pf b sp)). }
  rewrite E0. auto.
Qed.

(** hmove/vmove agree with operator() when the panel pointer is at a panel boundary. *)
Definition move_ok (p : mptr) : Prop := mp_kind p = Panel -> mp_base p mod SS = 0.

Lemma hmove_eq : forall p inc, move_ok p -> hmove SS p inc = poff SS p 0 inc.
Proof.
  intros [kd so af pf b sp] inc H. unfold move_ok, hmove, poff, addr, ptr_offset in *.
  cbn [mp_kind mp_so mp_af mp_base mp_sp mp_pf] in *. f_equal.
  destruct kd; [destruct so; lia|]. specialize (H eq_refl). rewrite H.
  replace (if af then 0 else 0) with 0 by (destruct af; auto). rewrite ?Nat.add_0_r, ?Nat.sub_0_r.
  destruct so.
  - lia.
  - rewrite Nat.div_small, Nat.mod_small by lia. lia.
Qed.

Lemma vmove_eq : forall p inc, move_ok p -> vmove SS p inc = poff SS p inc 0.
Proof.
  intros [kd so af pf b sp] inc H. unfold move_ok, vmove, poff, addr, ptr_offset in *.
  cbn [mp_kind mp_so mp_af mp_base mp_sp mp_pf] in *. f_equal.
  destruct kd; [destruct so; lia|]. specialize (H eq_refl). rewrite H.
  replace (if af then 0 else 0) with 0 by (destruct af; auto). rewrite ?Nat.add_0_r, ?Nat.sub_0_r.
  destruct so.
  - rewrite Nat.div_small, Nat.mod_small by lia. lia.
  - lia.
Qed.

(** Moves across the panel direction are right at any position. *)
Lemma hmove_cm : forall p inc, mp_so p = columnMajor -> hmove SS p inc = poff SS p 0 inc.
Proof.
  intros [kd so af pf b sp] inc H. unfold hmove, poff, addr, ptr_offset in *.
  cbn [mp_kind mp_so mp_af mp_base mp_sp mp_pf] in *. subst so. f_equal.
  destruct kd; [lia|]. destruct af.
  - rewrite Nat.add_0_r, Nat.sub_0_r, Nat.div_small, Nat.mod_small by lia. lia.
  - destruct (dm b SS HSS) as [Eb Lb]. cbn [Nat.add].
    rewrite (Nat.div_small (b mod SS)), (Nat.mod_small (b mod SS)) by lia. lia.
Qed.
Lemma vmove_rm : forall p inc, mp_so p = rowMajor -> vmove SS p inc = poff SS p inc 0.
Proof.
  intros [kd so af pf b sp] inc H. unfold vmove, poff, addr, ptr_offset in *.
  cbn [mp_kind mp_so mp_af mp_base mp_sp mp_pf] in *. subst so. f_equal.
  destruct kd; [lia|]. destruct af.
  - rewrite Nat.add_0_r, Nat.sub_0_r, Nat.div_small, Nat.mod_small by lia. lia.
  - destruct (dm b SS HSS) as [Eb Lb]. cbn [Nat.add].
    rewrite (Nat.div_small (b mod SS)), (Nat.mod_small (b mod SS)) by lia. lia.
Qed.

(** Contiguity of the SS lanes of one register. *)
Lemma addr_lanes_cm : forall p i j l, mp_so p = columnMajor -> mptr_wf p ->
  i mod SS = 0 -> l < SS -> (mp_kind p = Panel -> mp_af p = true \/ mp_base p mod SS = 0) ->
  addr SS p (i + l) j = addr SS p i j + l.
Proof.
  intros [kd so af pf b sp] i j l Hso [H1 H2] Hi Hl Haf. unfold addr, ptr_offset in *.
  cbn [mp_kind mp_so mp_af mp_base mp_sp mp_pf] in *. subst so.
  destruct kd; [lia|]. 
  assert (Hr : (if af then 0 else b mod SS) = 0).
  { destruct af; auto. destruct (Haf eq_refl); [discriminate|auto]. }
  rewrite Hr, !Nat.add_0_r, !Nat.sub_0_r.
  apply mod0_ex in Hi; auto. destruct Hi as [q ->].
  rewrite div_q, mod_q by auto. replace (SS * q) with (SS * q + 0) by lia. rewrite div_q, mod_q by lia. lia.
Qed.

Lemma addr_lanes_rm : forall p i j l, mp_so p = rowMajor -> mptr_wf p ->
  j mod SS = 0 -> l < SS -> (mp_kind p = Panel -> mp_af p = true \/ mp_base p mod SS = 0) ->
  addr SS p i (j + l) = addr SS p i j + l.
Proof.
  intros p i j l Hso Hwf Hj Hl Haf.
  rewrite <- !(addr_ptrans p). apply addr_lanes_cm; auto using ptrans_wf.
  - destruct p; cbn in *; subst; auto.
  - intros K. destruct p as [kd so af pf b sp].
    cbn [ptrans mp_kind mp_so mp_af mp_base mp_sp mp_pf] in *. subst.
    destruct (Haf eq_refl) as [|H]; auto. right.
    pose proof (addr_00 (MPtr Panel columnMajor af pf b sp)) as E0.
    unfold addr in E0. cbn [mp_kind mp_so mp_af mp_base mp_sp order_neg] in *. rewrite E0. exact H.
Qed.

(** An aligned pointer's element addresses are aligned at the register boundaries. *)
Lemma addr_aligned_cm : forall p i j, mp_so p = columnMajor -> mptr_wf p -> mp_af p = true ->
  i mod SS = 0 -> addr SS p i j mod SS = 0.
Proof.
  intros p i j Hso Hwf Haf Hi.
  destruct (poff_wf p i j Hwf) as [_ H].
  - rewrite Hso. auto.
  - cbn [poff mp_af mp_base] in H. apply H; auto.
Qed.

(* ---------------------------------------------------------------- views *)
Definition cont_wf (c : container) : Prop := c_base c mod SS = 0.

Lemma v_ptr_wf : forall af v i j, cont_wf (v_cont v) ->
  (af = true -> (match c_so (v_cont v) with columnMajor => v_i v + i | rowMajor => v_j v + j end) mod SS = 0 /\
                (match c_so (v_cont v) with columnMajor => i | rowMajor => j end) mod SS = 0) ->
  mptr_wf (v_ptr SS af v i j).
Proof.
  intros af v i j Hc Ha. pose proof (c_spacing_mod (v_cont v)) as Hs.
  split; cbn [v_ptr mp_kind mp_sp mp_af mp_base]; auto.
  intros ->. destruct (Ha eq_refl) as [A1 A2]. split; auto.
  unfold cont_wf in Hc. unfold v_data, c_addr, c_index, ptr_offset.
  set (c := v_cont v) in *. set (sp := c_spacing SS c) in *.
  apply mod0_ex in Hc; auto. apply mod0_ex in Hs; auto. apply mod0_ex in A1; auto. apply mod0_ex in A2; auto.
  destruct Hc as [qb ->]. destruct Hs as [qs ->]. destruct A1 as [q1 E1]. destruct A2 as [q2 E2].
  destruct (c_kind c), (c_so c).
  - assert (v_j v = SS * (q1 - q2)) by nia. rewrite E2, H.
    apply ex_mod0 with (qb + v_i v * qs + (q1 - q2) + qs * i + q2); lia.
  - assert (v_i v = SS * (q1 - q2)) by nia. rewrite E2, H.
    apply ex_mod0 with (qb + (q1 - q2) + v_j v * qs + q2 + qs * j); lia.
  - assert (v_j v = SS * (q1 - q2) + 0) by nia.
    replace j with (SS * q2 + 0) by lia. rewrite H. rewrite Nat.add_0_r with (n := SS * q2 + 0).
    rewrite !div_q, !mod_q by lia. rewrite Nat.sub_0_r.
    apply ex_mod0 with (qb + (q1 - q2) * qs + v_i v + i + q2 * qs); lia.
  - assert (v_i v = SS * (q1 - q2) + 0) by nia.
    replace i with (SS * q2 + 0) by lia. rewrite H. rewrite Nat.add_0_r with (n := SS * q2 + 0).
    rewrite !div_q, !mod_q by lia. rewrite Nat.sub_0_r.
    apply ex_mod0 with (qb + (q1 - q2) * qs + v_j v + q2 * qs + j); lia.
Qed.

(** The base of a view seen as a pointer of the same kind. *)
Definition c_ptr (af : bool) (c : container) : mptr :=
  MPtr (c_kind c) (c_so c) af true (c_base c) (c_spacing SS c).

Lemma c_ptr_wf : forall af c, cont_wf c -> mptr_wf (c_ptr af c).
Proof. intros. pose proof (c_spacing_mod c). split; cbn; auto. Qed.

Lemma c_addr_ptr : forall af c i j, cont_wf c -> addr SS (c_ptr af c) i j = c_addr SS c i j.
Proof.
  intros af c i j H. unfold addr, c_ptr, ptr_offset, c_addr, c_index.
  cbn [mp_kind mp_so mp_af mp_base mp_sp]. unfold cont_wf in H. rewrite H.
  replace (if af then 0 else 0) with 0 by (destruct af; auto). rewrite ?Nat.add_0_r, ?Nat.sub_0_r.
  destruct (c_kind c), (c_so c); lia.
Qed.

(** ptr<AF>(view, i, j): the pointer addresses exactly the elements of the view. *)
Lemma v_ptr_addr : forall af v i j k l, cont_wf (v_cont v) ->
  (c_kind (v_cont v) = Panel -> af = true ->
     (match c_so (v_cont v) with columnMajor => v_i v | rowMajor => v_j v end) mod SS = 0 /\
     (match c_so (v_cont v) with columnMajor => i | rowMajor => j end) mod SS = 0) ->
  addr SS (v_ptr SS af v i j) k l = v_addr SS v (i + k) (j + l).
Proof.
  intros af v i j k l Hc Ha.
  assert (E : v_ptr SS af v i j =
     let q := poff SS (poff SS (c_ptr af (v_cont v)) (v_i v) (v_j v)) i j in
     MPtr (mp_kind q) (mp_so q) (mp_af q) (v_pf v) (mp_base q) (mp_sp q)).
  { unfold v_ptr, poff, v_data. cbn [mp_kind mp_so mp_af mp_base mp_sp mp_pf c_ptr].
    rewrite <- (c_addr_ptr af) by auto. reflexivity. }
  rewrite E. clear E.
  assert (G : forall q pf, addr SS (MPtr (mp_kind q) (mp_so q) (mp_af q) pf (mp_base q) (mp_sp q)) k l = addr SS q k l)
    by reflexivity.
  cbv zeta. rewrite G.
  destruct (c_kind (v_cont v)) eqn:K.
  - (* dense *) unfold addr, poff, addr, ptr_offset, v_addr, c_addr, c_index, c_ptr.
    cbn [mp_kind mp_so mp_af mp_base mp_sp mp_pf]. rewrite K. destruct (c_so (v_cont v)); lia.
  - rewrite addr_poff.
    + rewrite addr_poff.
      * unfold v_addr. rewrite <- (c_addr_ptr af) by auto. f_equal; lia.
      * apply c_ptr_wf; auto.
      * intros _ Haf. cbn in Haf. cbn [c_ptr mp_so]. apply Ha; auto.
    + apply poff_wf; [apply c_ptr_wf; auto|].
      intros Haf. cbn in Haf. cbn [c_ptr mp_so]. apply Ha; auto.
    + intros _ Haf. cbn in Haf. cbn [c_ptr poff mp_so]. apply Ha; auto.
Qed.

Lemma t_ptr_addr : forall af t i j k l, cont_wf (v_cont (t_op t)) ->
  (c_kind (v_cont (t_op t)) = Panel -> af = true ->
     (match c_so (v_cont (t_op t)) with columnMajor => v_i (t_op t) | rowMajor => v_j (t_op t) end) mod SS = 0 /\
     (match c_so (v_cont (t_op t)) with columnMajor => j | rowMajor => i end) mod SS = 0) ->
  addr SS (t_ptr SS af t i j) k l = t_addr SS t (i + k) (j + l).
Proof.
  intros af t i j k l Hc Ha. unfold t_addr. rewrite <- (v_ptr_addr af) by auto.
  rewrite <- (addr_ptrans (v_ptr SS af (t_op t) j i)). f_equal. unfold t_ptr, ptrans, v_ptr. cbn [mp_kind mp_so mp_af mp_base mp_sp mp_pf].
  f_equal.
  set (c := v_cont (t_op t)) in *. set (d := v_data SS (t_op t)). set (sp := c_spacing SS c).
  rewrite ptr_offset_00.
  unfold ptr_offset. destruct (c_kind c), (c_so c); cbn [order_neg]; lia.
Qed.

End Layout.
