(** Properties_PtrDiff.v -- C74: offsets of matrix pointers, also negative ones, in the arithmetic of the machine. *)
From Coq Require Import Arith ZArith Lia List Bool PeanoNat Morphisms Setoid.
From Verif Require Import Base Layout_Model Layout_Proofs PtrDiff_Model.
Local Open Scope Z_scope.

Definition W := 2 ^ 64.
Definition cong (a b : Z) : Prop := exists t, a = b + W * t.
Notation "a == b" := (cong a b) (at level 70).
#[local] Instance cong_equiv : Equivalence cong.
Proof.
  split. - intros a. exists 0. ring. - intros a b [t H]. exists (- t). rewrite H. ring. - intros a b c [t H] [s K]. exists (t + s). rewrite H, K. ring.
Qed.
#[local] Instance add_mor : Proper (cong ==> cong ==> cong) Z.add.
Proof. intros a b [t H] c d [s K]. exists (t + s). rewrite H, K. ring. Qed.
#[local] Instance sub_mor : Proper (cong ==> cong ==> cong) Z.sub.
Proof. intros a b [t H] c d [s K]. exists (t - s). rewrite H, K. ring. Qed.
#[local] Instance opp_mor : Proper (cong ==> cong) Z.opp.
Proof. intros a b [t H]. exists (- t). rewrite H. ring. Qed.
#[local] Instance mul_mor : Proper (cong ==> cong ==> cong) Z.mul.
Proof. intros a b [t H] c d [s K]. exists (b * s + t * d + W * t * s). rewrite H, K. ring. Qed.
Lemma eq_cong : forall a b, a = b -> a == b. Proof. intros a b ->. reflexivity. Qed.
Lemma u64_eqm : forall x, u64 x == x.
Proof. intros x. exists (- (x / W)). unfold u64. change (2 ^ 64) with W. pose proof (Z.div_mod x W ltac:(unfold W; lia)). lia. Qed.
Lemma padd_eqm : forall sz p u, padd sz p u == p + sz * u. Proof. intros. unfold padd. apply u64_eqm. Qed.
Lemma cong_u64 : forall x y, x == y -> u64 x = u64 y.
Proof. intros x y [t ->]. unfold u64. change (2 ^ 64) with W. rewrite Z.mul_comm. apply Z_mod_plus_full. Qed.
Lemma u64_idem : forall x, u64 (u64 x) = u64 x. Proof. intros x. apply cong_u64, u64_eqm. Qed.
Lemma padd_u64 : forall sz p u x, p + sz * u == x -> padd sz p u = u64 x. Proof. intros sz p u x H. unfold padd. apply cong_u64. exact H. Qed.

(** Splitting a converted offset into panels: the panel size divides 2^64 and the spacing is a multiple of the panel size, so nothing is lost by the conversion. *)
Lemma split64 : forall SS q s x, 0 < SS -> W = SS * q -> u64 x / SS * (SS * s) + u64 x mod SS == x / SS * (SS * s) + x mod SS.
Proof.
  intros SS q s x HS HW. unfold u64. change (2 ^ 64) with W. pose proof (Z.div_mod x W ltac:(unfold W; lia)) as D. set (t := x / W) in *. set (y := x mod W) in *.
  assert (X : x = y + (q * t) * SS) by nia. rewrite X. rewrite Z.div_add, Z.mod_add by lia. exists (- t * s). rewrite HW. ring.
Qed.

(** ** The properties *)
(** [at_ SS sz c r cl]: the byte address of element (r, cl) of the container. *)
Definition at_ (SS sz : nat) (c : container) (r cl : nat) : Z := Z.of_nat sz * Z.of_nat (c_addr SS c r cl).
Definition sp_ (SS : nat) (c : container) : Z := Z.of_nat (c_spacing SS c).
(** SIMD width and element size are powers of two, the buffer begins at a register boundary. *)
Definition machine (SS sz : nat) (c : container) : Prop :=
  (exists e f, SS = 2 ^ e /\ sz = 2 ^ f /\ e + f <= 64)%nat /\ (c_base c mod SS = 0)%nat.

Lemma machine_pos : forall SS sz c, machine SS sz c -> (0 < SS)%nat /\ (0 < sz)%nat /\ exists q, W = Z.of_nat SS * Z.of_nat sz * q.
Proof.
  intros SS sz c ((e & f & -> & -> & H) & _). assert (P : forall n, (0 < 2 ^ n)%nat) by (intros n; pose proof (Nat.pow_nonzero 2 n); lia).
  split; auto. split; auto. exists (2 ^ (64 - Z.of_nat (e + f))). rewrite !Nat2Z.inj_pow. change (Z.of_nat 2) with 2. unfold W. rewrite <- !Z.pow_add_r by lia. f_equal. lia.
Qed.

Lemma u64_small : forall x, 0 <= x < 2 ^ 64 -> u64 x = x. Proof. intros x H. apply Z.mod_small. exact H. Qed.
Lemma div_back : forall SS r r', 0 < SS -> (r' - r + r mod SS) / SS = r' / SS - r / SS /\ (r' - r + r mod SS) mod SS = r' mod SS.
Proof.
  intros SS r r' H. pose proof (Z.div_mod r SS ltac:(lia)). replace (r' - r + r mod SS) with (r' + - (r / SS) * SS) by lia. rewrite Z.div_add, Z.mod_add by lia. split; lia.
Qed.
(** The misalignment of a panel pointer, from its byte address. *)
Lemma rem_of : forall SS sz q a, 0 < SS -> 0 < sz -> W = SS * sz * q -> (u64 (sz * a) mod (SS * sz)) / sz = a mod SS.
Proof.
  intros SS sz q a H1 H2 HW. unfold u64. change (2 ^ 64) with W. pose proof (Z.div_mod (sz * a) W ltac:(unfold W; lia)) as D. set (t := sz * a / W) in *.
  replace ((sz * a) mod W) with (sz * a + - (q * t) * (SS * sz)) by nia. rewrite Z.mod_add by lia. rewrite (Z.mul_comm SS sz), Z.mul_mod_distr_l by lia.
  rewrite Z.mul_comm. apply Z.div_mul. lia.
Qed.
Section Containers.
Variables (SS sz : nat) (c : container).
Hypothesis HM : machine SS sz c.
Notation S := (Z.of_nat SS). Notation Z0 := (Z.of_nat sz). Notation sp := (sp_ SS c).
Lemma at_dense_cm : forall r cl, c_kind c = Dense -> c_so c = columnMajor -> at_ SS sz c r cl = Z0 * (Z.of_nat (c_base c) + (Z.of_nat r + Z.of_nat cl * sp)).
Proof. intros r cl K H. unfold at_, c_addr, c_index, sp_. rewrite K, H. rewrite !Nat2Z.inj_add, Nat2Z.inj_mul. reflexivity. Qed.
Lemma at_dense_rm : forall r cl, c_kind c = Dense -> c_so c = rowMajor -> at_ SS sz c r cl = Z0 * (Z.of_nat (c_base c) + (Z.of_nat r * sp + Z.of_nat cl)).
Proof. intros r cl K H. unfold at_, c_addr, c_index, sp_. rewrite K, H. rewrite !Nat2Z.inj_add, Nat2Z.inj_mul. reflexivity. Qed.
Lemma at_panel_cm : forall r cl, c_kind c = Panel -> c_so c = columnMajor ->
  at_ SS sz c r cl = Z0 * (Z.of_nat (c_base c) + (Z.of_nat r / S * sp + Z.of_nat r mod S + Z.of_nat cl * S)).
Proof. intros r cl K H. unfold at_, c_addr, c_index, sp_. rewrite K, H. rewrite !Nat2Z.inj_add, !Nat2Z.inj_mul, Nat2Z.inj_div, Nat2Z.inj_mod. reflexivity. Qed.
Lemma at_panel_rm : forall r cl, c_kind c = Panel -> c_so c = rowMajor ->
  at_ SS sz c r cl = Z0 * (Z.of_nat (c_base c) + (Z.of_nat cl / S * sp + Z.of_nat cl mod S + Z.of_nat r * S)).
Proof. intros r cl K H. unfold at_, c_addr, c_index, sp_. rewrite K, H. rewrite !Nat2Z.inj_add, !Nat2Z.inj_mul, Nat2Z.inj_div, Nat2Z.inj_mod. reflexivity. Qed.
Lemma sp_panel : c_kind c = Panel -> exists s, sp = S * s.
Proof.
  intros K. unfold sp_, c_spacing. rewrite K. destruct (c_so c); [exists (Z.of_nat (c_rows c))|exists (Z.of_nat (c_cols c))]; apply Nat2Z.inj_mul.
Qed.
Lemma base_mod : Z.of_nat (c_base c) mod S = 0.
Proof. rewrite <- Nat2Z.inj_mod. rewrite (proj2 HM). reflexivity. Qed.

(** p(i, j) and p[i, j]: from element (r, cl), an offset of (r' - r, cl' - cl), negative or not, leads to element (r', cl').  All containers, both orders, both pointer classes
    (spacing a run-time value or a template parameter), aligned or not; an aligned panel pointer has to be at the beginning of a panel row. *)
Lemma offset64_ok : forall st af r cl r' cl',
  (c_kind c = Panel -> af = true -> match c_so c with columnMajor => (r mod SS = 0)%nat | rowMajor => (cl mod SS = 0)%nat end) ->
  ptr_offset64 S Z0 (c_kind c) st (c_so c) af (at_ SS sz c r cl) sp (Z.of_nat r' - Z.of_nat r) (Z.of_nat cl' - Z.of_nat cl) = u64 (at_ SS sz c r' cl').
Proof.
  intros st af r cl r' cl' HA. destruct (machine_pos _ _ _ HM) as (h1 & h2 & q & HW). unfold ptr_offset64. destruct (c_kind c) eqn:K.
  - destruct (c_so c) eqn:SO; [rewrite !at_dense_rm by auto|rewrite !at_dense_cm by auto]; destruct st; apply padd_u64; rewrite ?padd_eqm, !u64_eqm; apply eq_cong; ring.
  - destruct (sp_panel K) as [s Es]. destruct (c_so c) eqn:SO.
    + rewrite !at_panel_rm by auto.
      assert (R : (if af then 0 else u64 (Z0 * (Z.of_nat (c_base c) + (Z.of_nat cl / S * sp + Z.of_nat cl mod S + Z.of_nat r * S))) mod (S * Z0) / Z0) = Z.of_nat cl mod S).
      { destruct af.
        - rewrite <- Nat2Z.inj_mod, HA; auto.
        - rewrite (rem_of S Z0 q) by lia. rewrite Es. replace (Z.of_nat (c_base c) + (Z.of_nat cl / S * (S * s) + Z.of_nat cl mod S + Z.of_nat r * S))
            with (Z.of_nat (c_base c) + Z.of_nat cl mod S + (Z.of_nat cl / S * s + Z.of_nat r) * S) by ring.
          rewrite Z.mod_add by lia. rewrite Z.add_mod, base_mod, Z.add_0_l, !Z.mod_mod by lia. reflexivity. }
      rewrite R. apply padd_u64. rewrite !padd_eqm, !u64_eqm. set (x := u64 (u64 (Z.of_nat cl' - Z.of_nat cl) + Z.of_nat cl mod S)).
      assert (X : x / S * sp + x mod S == (Z.of_nat cl' / S - Z.of_nat cl / S) * sp + Z.of_nat cl' mod S).
      { destruct (div_back S (Z.of_nat cl) (Z.of_nat cl') ltac:(lia)) as [<- D]. rewrite <- D. rewrite Es. rewrite <- (split64 S (Z0 * q) s (Z.of_nat cl' - Z.of_nat cl + Z.of_nat cl mod S)) by lia.
        replace x with (u64 (Z.of_nat cl' - Z.of_nat cl + Z.of_nat cl mod S)); [reflexivity|]. unfold x. apply cong_u64. rewrite u64_eqm. reflexivity. }
      rewrite <- Z.add_assoc, <- (Z.mul_add_distr_l Z0 (x / S * sp)). rewrite X. apply eq_cong. ring.
    + rewrite !at_panel_cm by auto.
      assert (R : (if af then 0 else u64 (Z0 * (Z.of_nat (c_base c) + (Z.of_nat r / S * sp + Z.of_nat r mod S + Z.of_nat cl * S))) mod (S * Z0) / Z0) = Z.of_nat r mod S).
      { destruct af.
        - rewrite <- Nat2Z.inj_mod, HA; auto.
        - rewrite (rem_of S Z0 q) by lia. rewrite Es. replace (Z.of_nat (c_base c) + (Z.of_nat r / S * (S * s) + Z.of_nat r mod S + Z.of_nat cl * S))
            with (Z.of_nat (c_base c) + Z.of_nat r mod S + (Z.of_nat r / S * s + Z.of_nat cl) * S) by ring.
          rewrite Z.mod_add by lia. rewrite Z.add_mod, base_mod, Z.add_0_l, !Z.mod_mod by lia. reflexivity. }
      rewrite R. apply padd_u64. rewrite !padd_eqm, !u64_eqm. set (x := u64 (u64 (Z.of_nat r' - Z.of_nat r) + Z.of_nat r mod S)).
      assert (X : x / S * sp + x mod S == (Z.of_nat r' / S - Z.of_nat r / S) * sp + Z.of_nat r' mod S).
      { destruct (div_back S (Z.of_nat r) (Z.of_nat r') ltac:(lia)) as [<- D]. rewrite <- D. rewrite Es. rewrite <- (split64 S (Z0 * q) s (Z.of_nat r' - Z.of_nat r + Z.of_nat r mod S)) by lia.
        replace x with (u64 (Z.of_nat r' - Z.of_nat r + Z.of_nat r mod S)); [reflexivity|]. unfold x. apply cong_u64. rewrite u64_eqm. reflexivity. }
      rewrite <- (Z.add_assoc _ (Z0 * (x / S * sp))), <- (Z.mul_add_distr_l Z0 (x / S * sp)). rewrite X, !u64_eqm. apply eq_cong. ring.
Qed.
Lemma hmove64_ok : forall r cl cl', (c_kind c = Panel -> c_so c = rowMajor -> (cl mod SS = 0)%nat) ->
  hmove64 S Z0 (c_kind c) (c_so c) (at_ SS sz c r cl) sp (Z.of_nat cl' - Z.of_nat cl) = u64 (at_ SS sz c r cl').
Proof.
  intros r cl cl' HA. destruct (machine_pos _ _ _ HM) as (h1 & h2 & q & HW). unfold hmove64. destruct (c_kind c) eqn:K.
  - destruct (c_so c) eqn:SO; [rewrite !at_dense_rm by auto|rewrite !at_dense_cm by auto]; apply padd_u64; cbv beta iota; rewrite ?u64_eqm; apply eq_cong; ring.
  - destruct (sp_panel K) as [s Es]. destruct (c_so c) eqn:SO.
    + rewrite !at_panel_rm by auto. apply padd_u64. cbv beta iota. rewrite !u64_eqm. rewrite (Z.mul_comm sp). rewrite Es.
      rewrite (split64 S (Z0 * q) s) by lia. assert (A : Z.of_nat cl mod S = 0) by (rewrite <- Nat2Z.inj_mod, HA; auto).
      destruct (div_back S (Z.of_nat cl) (Z.of_nat cl') ltac:(lia)) as [D1 D2]. rewrite A, Z.add_0_r in D1, D2. rewrite D1, D2, A. apply eq_cong. ring.
    + rewrite !at_panel_cm by auto. apply padd_u64. cbv beta iota. rewrite !u64_eqm. apply eq_cong. ring.
Qed.
Lemma vmove64_ok : forall r cl r', (c_kind c = Panel -> c_so c = columnMajor -> (r mod SS = 0)%nat) ->
  vmove64 S Z0 (c_kind c) (c_so c) (at_ SS sz c r cl) sp (Z.of_nat r' - Z.of_nat r) = u64 (at_ SS sz c r' cl).
Proof.
  intros r cl r' HA. destruct (machine_pos _ _ _ HM) as (h1 & h2 & q & HW). unfold vmove64. destruct (c_kind c) eqn:K.
  - destruct (c_so c) eqn:SO; [rewrite !at_dense_rm by auto|rewrite !at_dense_cm by auto]; apply padd_u64; cbv beta iota; rewrite ?u64_eqm; apply eq_cong; ring.
  - destruct (sp_panel K) as [s Es]. destruct (c_so c) eqn:SO.
    + rewrite !at_panel_rm by auto. apply padd_u64. cbv beta iota. rewrite !u64_eqm. apply eq_cong. ring.
    + rewrite !at_panel_cm by auto. apply padd_u64. cbv beta iota. rewrite !u64_eqm. rewrite (Z.mul_comm sp). rewrite Es.
      rewrite (split64 S (Z0 * q) s) by lia. assert (A : Z.of_nat r mod S = 0) by (rewrite <- Nat2Z.inj_mod, HA; auto).
      destruct (div_back S (Z.of_nat r) (Z.of_nat r') ltac:(lia)) as [D1 D2]. rewrite A, Z.add_0_r in D1, D2. rewrite D1, D2, A. apply eq_cong. ring.
Qed.
End Containers.

(** [in_memory SS sz c r cl]: element (r, cl) lies in the 64-bit address space. *)
Definition in_memory (SS sz : nat) (c : container) (r cl : nat) : Prop := at_ SS sz c r cl < 2 ^ 64.
Lemma in_memory_u64 : forall SS sz c r cl, in_memory SS sz c r cl -> u64 (at_ SS sz c r cl) = at_ SS sz c r cl.
Proof. intros SS sz c r cl H. apply u64_small. unfold in_memory in H. split; auto. unfold at_. lia. Qed.

(** p(i, j) and p[i, j]: from element (r, cl) the offset (r' - r, cl' - cl), negative or not, leads to element (r', cl').  Dense and panel containers, both storage orders, both
    pointer classes (spacing a run-time value or, [st], a template parameter), aligned or not; an aligned panel pointer has to be at the first row (column) of a panel. *)
Theorem C74_offset : forall SS sz c st af r cl r' cl', machine SS sz c -> in_memory SS sz c r' cl' ->
  (c_kind c = Panel -> af = true -> match c_so c with columnMajor => (r mod SS = 0)%nat | rowMajor => (cl mod SS = 0)%nat end) ->
  ptr_offset64 (Z.of_nat SS) (Z.of_nat sz) (c_kind c) st (c_so c) af (at_ SS sz c r cl) (sp_ SS c) (Z.of_nat r' - Z.of_nat r) (Z.of_nat cl' - Z.of_nat cl) = at_ SS sz c r' cl'.
Proof. intros SS sz c st af r cl r' cl' HM HI HA. rewrite offset64_ok by auto. apply in_memory_u64. auto. Qed.
(** hmove and vmove with negative or positive increments; a panel pointer moving across panels has to be at the first row (column) of a panel. *)
Theorem C74_move : forall SS sz c r cl r' cl', machine SS sz c -> in_memory SS sz c r cl' -> in_memory SS sz c r' cl ->
  ((c_kind c = Panel -> c_so c = rowMajor -> (cl mod SS = 0)%nat) ->
   hmove64 (Z.of_nat SS) (Z.of_nat sz) (c_kind c) (c_so c) (at_ SS sz c r cl) (sp_ SS c) (Z.of_nat cl' - Z.of_nat cl) = at_ SS sz c r cl') /\
  ((c_kind c = Panel -> c_so c = columnMajor -> (r mod SS = 0)%nat) ->
   vmove64 (Z.of_nat SS) (Z.of_nat sz) (c_kind c) (c_so c) (at_ SS sz c r cl) (sp_ SS c) (Z.of_nat r' - Z.of_nat r) = at_ SS sz c r' cl).
Proof.
  intros SS sz c r cl r' cl' HM H1 H2. split; intros HA; [rewrite hmove64_ok by auto|rewrite vmove64_ok by auto]; apply in_memory_u64; auto.
Qed.
(** Refuted: the same for a panel pointer that is not at the beginning of a panel.  One step up from row 6 of a 8-by-3 matrix (panels of four rows): the pointer arrives at row 1 of the
    next column but one panel up instead of row 5.  p(-1, 0) is right. *)
Theorem C74_move_unaligned_refuted : let c := Cont Panel false columnMajor 8 3 0 in machine 4 8 c /\
  vmove64 4 8 Panel columnMajor (at_ 4 8 c 6 0) (sp_ 4 c) (-1) = at_ 4 8 c 1 1 /\ at_ 4 8 c 1 1 <> at_ 4 8 c 5 0 /\
  ptr_offset64 4 8 Panel false columnMajor false (at_ 4 8 c 6 0) (sp_ 4 c) (-1) 0 = at_ 4 8 c 5 0.
Proof. cbv zeta. split; [split; [exists 2%nat, 3%nat; repeat split; cbn; lia|reflexivity]|]. vm_compute. repeat split; discriminate. Qed.
(** Vector pointers: from element k of a vector with any spacing, the offset k' - k leads to element k'. *)
Theorem C74_vector : forall sz s b k k' : nat, Z.of_nat sz * (Z.of_nat b + Z.of_nat s * Z.of_nat k') < 2 ^ 64 ->
  voff64 (Z.of_nat sz) (Z.of_nat sz * (Z.of_nat b + Z.of_nat s * Z.of_nat k)) (Z.of_nat s) (Z.of_nat k' - Z.of_nat k) = Z.of_nat sz * (Z.of_nat b + Z.of_nat s * Z.of_nat k').
Proof.
  intros sz s b k k' H. unfold voff64. rewrite <- (u64_small (Z.of_nat sz * (Z.of_nat b + Z.of_nat s * Z.of_nat k'))) by lia.
  apply padd_u64. cbv beta iota. rewrite !u64_eqm. apply eq_cong. ring.
Qed.
(** The alignment test on the address is the one on the element index the other theorems use: an element address is aligned iff its position is a multiple of the SIMD width. *)
Theorem C74_aligned : forall SS sz c r cl, machine SS sz c -> aligned64 (Z.of_nat SS) (Z.of_nat sz) (at_ SS sz c r cl) = true <-> (c_addr SS c r cl mod SS = 0)%nat.
Proof.
  intros SS sz c r cl HM. destruct (machine_pos _ _ _ HM) as (h1 & h2 & q & HW). unfold aligned64, at_. rewrite Z.eqb_eq.
  pose proof (rem_of (Z.of_nat SS) (Z.of_nat sz) q (Z.of_nat (c_addr SS c r cl)) ltac:(lia) ltac:(lia) HW) as R. rewrite <- Nat2Z.inj_mod in R.
  split; intros H.
  - rewrite H in R. rewrite Z.div_0_l in R by lia. lia.
  - rewrite H in R. unfold u64 in *. change (2 ^ 64) with W in *. pose proof (Z.div_mod (Z.of_nat sz * Z.of_nat (c_addr SS c r cl)) W ltac:(unfold W; lia)) as D.
    set (t := Z.of_nat sz * Z.of_nat (c_addr SS c r cl) / W) in *.
    replace ((Z.of_nat sz * Z.of_nat (c_addr SS c r cl)) mod W) with (Z.of_nat sz * Z.of_nat (c_addr SS c r cl) + - (q * t) * (Z.of_nat SS * Z.of_nat sz)) by nia.
    rewrite Z.mod_add by lia. rewrite (Z.mul_comm (Z.of_nat SS)), Z.mul_mod_distr_l by lia. rewrite <- Nat2Z.inj_mod, H. lia.
Qed.

(** The same pointers in the model of the other theorems (element addresses, non-negative offsets): machine and model agree. *)
Theorem C74_model : forall SS sz c af r cl i j, machine SS sz c -> in_memory SS sz c (r + i) (cl + j) ->
  (c_kind c = Panel -> af = true -> match c_so c with columnMajor => (r mod SS = 0)%nat | rowMajor => (cl mod SS = 0)%nat end) ->
  let p := v_ptr SS af (View c r cl 0 0 af false) 0 0 in
  ptr_offset64 (Z.of_nat SS) (Z.of_nat sz) (c_kind c) (c_static c) (c_so c) af (Z.of_nat sz * Z.of_nat (mp_base p)) (sp_ SS c) (Z.of_nat i) (Z.of_nat j) = Z.of_nat sz * Z.of_nat (addr SS p i j).
Proof.
  intros SS sz c af r cl i j HM HI HA p. destruct (machine_pos _ _ _ HM) as (h1 & h2 & _).
  assert (CW : cont_wf SS c) by (apply (proj2 HM)).
  assert (A : forall k l, addr SS p k l = c_addr SS c (r + k) (cl + l)).
  { intros k l. unfold p. rewrite v_ptr_addr; auto. intros K E. cbn [v_cont v_i v_j] in *. specialize (HA K E). destruct (c_so c); (split; [exact HA|apply Nat.mod_0_l; lia]). }
  assert (B : mp_base p = c_addr SS c r cl).
  { rewrite <- (addr_00 SS h1 p), A, !Nat.add_0_r. reflexivity. }
  rewrite B, A. fold (at_ SS sz c r cl). fold (at_ SS sz c (r + i) (cl + j)). rewrite <- (C74_offset SS sz c (c_static c) af r cl (r + i) (cl + j)) by auto.
  f_equal; lia.
Qed.

(* ------------------------------------------------------------------ examples *)
(** double, four per register; a 9-by-6 panel matrix at byte address 4096. *)
Example C74_example : let c := Cont Panel false columnMajor 9 6 512 in machine 4 8 c /\ in_memory 4 8 c 1 2 /\ ptr_offset64 4 8 Panel false columnMajor false (at_ 4 8 c 7 5) (sp_ 4 c) (-6) (-3) = at_ 4 8 c 1 2 /\ at_ 4 8 c 1 2 = 4096 + 8 * 9 /\ vmove64 4 8 Panel columnMajor (at_ 4 8 c 8 5) (sp_ 4 c) (-5) = at_ 4 8 c 3 5.
Proof. cbv zeta. split; [split; [exists 2%nat, 3%nat; repeat split; cbn; lia|reflexivity]|]. vm_compute. repeat split. Qed.
