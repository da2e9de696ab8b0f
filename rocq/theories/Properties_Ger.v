(** Properties_Ger.v -- C23: the rank-1 update ger. *)
From Coq Require Import Arith Lia List Bool PeanoNat ZArith.
From Verif Require Import Base Base_Proofs Spec Algebra_Proofs Instances Layout_Model Layout_Proofs Simd_Model Simd_Proofs
  Reg_Model Reg_Proofs Vec_Proofs Tile_Model Gemm_Model Gemm_Proofs Arg_Proofs Ger_Model Ger_Proofs Scan_Proofs Properties_Gemm.
Import ListNotations.

(** Operands of the column-major ger. *)
Record ger_pre (SS cc : nat) (al : alloc) (x y : varg) (A B : marg) : Prop := {
  rp_x : vptr_ok SS (x_ptr x); rp_y : vec_ok SS (x_ptr y);
  rp_A : arg_ok SS A; rp_B : arg_ok SS B; rp_soA : g_so A = columnMajor; rp_soB : g_so B = columnMajor;
  rp_panA : is_panel A -> at_panel SS A; rp_panB : is_panel B -> v_af (g_view B) = true;
  rp_szA : g_rows A = x_size x /\ g_cols A = x_size y; rp_szB : g_rows B = x_size x /\ g_cols B = x_size y;
  (* allocated memory: x up to the next multiple of the tile size, A up to the next multiple of the SIMD size *)
  rp_alx : forall i, i < nextMultiple (x_size x) (cc * SS) -> al (vaddr SS (x_ptr x) i) = true;
  rp_aly : forall j, j < x_size y -> al (vaddr SS (x_ptr y) j) = true;
  rp_alA : allocated al (nextMultiple (x_size x) SS) (x_size y) (g_addr SS A);
  rp_alB : allocated al (x_size x) (x_size y) (g_addr SS B);
  (* B does not overlap x or y; it is A itself or does not overlap A *)
  rp_sepx : forall i j k, i < x_size x -> j < x_size y -> k < x_size x -> g_addr SS B i j <> vaddr SS (x_ptr x) k;
  rp_sepy : forall i j k, i < x_size x -> j < x_size y -> k < x_size y -> g_addr SS B i j <> vaddr SS (x_ptr y) k;
  rp_sepA : forall i j i' j', block (x_size x) (x_size y) i j -> block (x_size x) (x_size y) i' j' ->
              g_addr SS B i j = g_addr SS A i' j' -> i = i' /\ j = j'
}.

(** Column-major: B(i,j) = fma(alpha*x(i), y(j), 1*A(i,j)), whatever the scalar operations, and nothing else changes.
    [cc] is the ratio of tile size and SIMD size (1: AVX2, 2: NEON). *)
Theorem C23_ger_column_major : forall SS cc T (O : Ops T) al alpha x y A B m, 0 < SS -> 0 < cc -> ger_pre SS cc al x y A B ->
  exists m', ger_cm SS cc T O al alpha x y A B m = Ok m' /\
    updated (block (x_size x) (x_size y)) (g_addr SS B)
      (fun i j => ofma O (omul O alpha (m (vaddr SS (x_ptr x) i))) (m (vaddr SS (x_ptr y) j))
                         (omul O (o1 O) (m (g_addr SS A i j)))) m m'.
Proof.
  intros SS cc T O al alpha x y A B m HSS Hcc [hx hy hA hB sA sB pA pB [zA1 zA2] [zB1 zB2] ax ay aA aB xx xy xA].
  unfold ger_cm. rewrite zA1, zA2, zB1, zB2, !Nat.eqb_refl. cbn [negb].
  destruct (nextMultiple_spec (x_size x) SS HSS) as (NM & _ & _).
  destruct (ger_ptr_ok SS HSS cc Hcc T O al (x_size x) (x_size y) alpha (x_ptr x) (x_ptr y) (g_ptr SS A) (g_ptr SS B) m)
    as (m' & E & U1 & U2);
    auto using g_ptr_wf, g_ptr_lane, g_ptr_store; try (rewrite g_ptr_so; assumption).
  - intros i j Hi Hj. rewrite g_ptr_addr by auto. apply aA; auto. destruct (_ && _); lia.
  - intros i j Hi Hj. rewrite g_ptr_addr by auto. apply aB; auto.
  - intros i j i' j' Hi Hj Hi' Hj' X. rewrite !g_ptr_addr in X by auto. apply (g_distinct SS HSS B hB); lia.
  - intros i j k Hi Hj Hk. rewrite g_ptr_addr by auto. apply xx; auto.
  - intros i j k Hi Hj Hk. rewrite g_ptr_addr by auto. apply xy; auto.
  - intros i j i' j' Hi Hi' X. rewrite !g_ptr_addr in X by auto. apply xA; auto.
  - exists m'. split; auto. split.
    + intros i j Hij. rewrite <- g_ptr_addr by auto. rewrite U1 by auto. unfold ger_elem. rewrite g_ptr_addr; auto.
    + intros a Ha. apply U2. intros i j Hij. rewrite g_ptr_addr by auto. auto.
Qed.

(** Whenever multiplication by one is exact (true of IEEE arithmetic, whose rounding fma otherwise stays arbitrary):
    fma(alpha*x(i), y(j), A(i,j)). *)
Theorem C23_ger_column_major_fma : forall SS cc T (O : Ops T) al alpha x y A B m, 0 < SS -> 0 < cc -> ger_pre SS cc al x y A B ->
  (forall a, omul O (o1 O) a = a) ->
  exists m', ger_cm SS cc T O al alpha x y A B m = Ok m' /\
    updated (block (x_size x) (x_size y)) (g_addr SS B)
      (fun i j => ofma O (omul O alpha (m (vaddr SS (x_ptr x) i))) (m (vaddr SS (x_ptr y) j)) (m (g_addr SS A i j))) m m'.
Proof.
  intros SS cc T O al alpha x y A B m HSS Hcc P H1.
  destruct (C23_ger_column_major SS cc T O al alpha x y A B m HSS Hcc P) as (m' & E & U1 & U2).
  exists m'. split; auto. split; auto. intros i j Hij. rewrite U1 by auto. rewrite H1. reflexivity.
Qed.

(** Row-major: B(i,j) = A(i,j) + alpha*x(i)*y(j). *)
Theorem C23_ger_row_major : forall SS T (O : Ops T) al alpha x y A B m, 0 < SS ->
  arg_ok SS B -> g_rows A = x_size x -> g_cols A = x_size y -> g_rows B = x_size x -> g_cols B = x_size y ->
  (forall i, i < x_size x -> al (vaddr SS (x_ptr x) i) = true) ->
  (forall j, j < x_size y -> al (vaddr SS (x_ptr y) j) = true) ->
  allocated al (x_size x) (x_size y) (g_addr SS A) -> allocated al (x_size x) (x_size y) (g_addr SS B) ->
  (forall i j k, i < x_size x -> j < x_size y -> k < x_size x -> g_addr SS B i j <> vaddr SS (x_ptr x) k) ->
  (forall i j k, i < x_size x -> j < x_size y -> k < x_size y -> g_addr SS B i j <> vaddr SS (x_ptr y) k) ->
  (forall i j i' j', block (x_size x) (x_size y) i j -> block (x_size x) (x_size y) i' j' ->
              g_addr SS B i j = g_addr SS A i' j' -> i = i' /\ j = j') ->
  exists m', ger_rm SS T O al alpha x y A B m = Ok m' /\
    updated (block (x_size x) (x_size y)) (g_addr SS B)
      (fun i j => oadd O (m (g_addr SS A i j)) (omul O (omul O alpha (m (vaddr SS (x_ptr x) i))) (m (vaddr SS (x_ptr y) j)))) m m'.
Proof.
  intros SS T O al alpha x y A B m HSS hB zA1 zA2 zB1 zB2 ax ay aA aB xx xy xA.
  unfold ger_rm. rewrite zA1, zA2, !Nat.eqb_refl. cbn [negb andb].
  apply (scan2_ok T al (x_size x) (x_size y) (g_addr SS B)
    (fun i j m => a <- rd al m (g_addr SS A i j) ;; xi <- rd al m (vaddr SS (x_ptr x) i) ;;
                  yj <- rd al m (vaddr SS (x_ptr y) j) ;; wr al m (g_addr SS B i j) (oadd O a (omul O (omul O alpha xi) yj)))).
  - intros i j i' j' Hi Hj Hi' Hj'. apply (g_distinct SS HSS B hB); lia.
  - intros i j m1 Hi Hj [_ U]. rewrite !rd_ok by auto. cbn [bind]. rewrite wr_ok by auto.
    rewrite (U (g_addr SS A i j)), (U (vaddr SS (x_ptr x) i)), (U (vaddr SS (x_ptr y) j)); auto.
    + intros i' j' Hb X. symmetry in X. apply (xy i' j' j) in X; auto; destruct Hb as [[]|[]]; lia.
    + intros i' j' Hb X. symmetry in X. apply (xx i' j' i) in X; auto; destruct Hb as [[]|[]]; lia.
    + intros i' j' Hb X. symmetry in X. apply xA in X; [| |split]; auto; try (destruct Hb as [[]|[]]; lia).
      split; destruct Hb as [[]|[]]; lia.
Qed.

(** Over a commutative ring both compute A + alpha*x*y^T. *)
Theorem C23_ger_ring : forall SS cc T (O : Ops T) al alpha x y A B m, 0 < SS -> 0 < cc -> ring_laws O -> ger_pre SS cc al x y A B ->
  exists m', ger_cm SS cc T O al alpha x y A B m = Ok m' /\
    updated (block (x_size x) (x_size y)) (g_addr SS B)
      (fun i j => oadd O (m (g_addr SS A i j)) (omul O (omul O alpha (m (vaddr SS (x_ptr x) i))) (m (vaddr SS (x_ptr y) j)))) m m'.
Proof.
  intros SS cc T O al alpha x y A B m HSS Hcc RL P.
  destruct (C23_ger_column_major SS cc T O al alpha x y A B m HSS Hcc P) as (m' & E & U1 & U2).
  exists m'. split; auto. split; auto. intros i j Hij. rewrite U1 by auto.
  rewrite (rl_fma O RL), (rl_mul_1 O RL), (rl_add_comm O RL). reflexivity.
Qed.

(** Mismatched sizes are rejected before any access (every allocation, even an empty one). *)
Theorem C23_ger_column_major_throws : forall SS cc T (O : Ops T) al alpha x y A B m,
  g_rows A <> x_size x \/ g_cols A <> x_size y \/ g_rows B <> x_size x \/ g_cols B <> x_size y ->
  ger_cm SS cc T O al alpha x y A B m = Throw InvalidArgument.
Proof.
  intros SS cc T O al alpha x y A B m H. unfold ger_cm.
  destruct (Nat.eqb_spec (g_rows A) (x_size x)); cbn [negb]; auto.
  destruct (Nat.eqb_spec (g_cols A) (x_size y)); cbn [negb]; auto.
  destruct (Nat.eqb_spec (g_rows B) (x_size x)); cbn [negb]; auto.
  destruct (Nat.eqb_spec (g_cols B) (x_size y)); cbn [negb]; auto. tauto.
Qed.
Theorem C23_ger_row_major_throws : forall SS T (O : Ops T) al alpha x y A B m,
  g_rows A <> x_size x \/ g_cols A <> x_size y -> ger_rm SS T O al alpha x y A B m = Throw InvalidArgument.
Proof.
  intros SS T O al alpha x y A B m H. unfold ger_rm.
  destruct (Nat.eqb_spec (g_rows A) (x_size x)), (Nat.eqb_spec (g_cols A) (x_size y)); cbn [negb andb]; auto. tauto.
Qed.
(** ... but the row-major form does not check B: a 1-by-1 B for 2-element x and y is written out of bounds. *)
Definition yA : container := Cont Dense false rowMajor 2 2 0.
Definition yB : container := Cont Dense false rowMajor 1 1 8.
Definition y_al (x : nat) : bool := c_alloc 4 yA x || c_alloc 4 yB x || ((16 <=? x) && (x <? 24)).
Definition yx' : varg := VArg 2 (VStat 1 true 16).
Definition yy' : varg := VArg 2 (VStat 1 true 20).
Theorem C23_ger_row_major_unchecked_output_refuted :
  ger_rm 4 Z zops y_al 1%Z yx' yy' (MArg (whole yA) false) (MArg (whole yB) false) (fun _ => 0%Z) = UB.
Proof. vm_compute. reflexivity. Qed.

(** With two SIMD registers per tile (NEON, double) x is read up to the next multiple of the tile size: a vector x of
    length 2 padded to a multiple of the SIMD size 2 is read out of bounds. *)
Definition nA : container := Cont Dense false columnMajor 2 1 0.
Definition n_al (x : nat) : bool := c_alloc 2 nA x || ((4 <=? x) && (x <? 6)) || (x =? 8).
Theorem C23_ger_neon_overread_refuted :
  nextMultiple 2 2 = 2 /\
  ger_cm 2 2 Z zops n_al 1%Z (VArg 2 (VStat 1 true 4)) (VArg 1 (VStat 1 true 8)) (MArg (whole nA) false) (MArg (whole nA) false)
    (fun _ => 0%Z) = UB.
Proof. vm_compute. auto. Qed.

(* ------------------------------------------------------------------ example *)
(** x of length 6 (stride 1), y a row of stride 3, A = B a 6x3 panel matrix. *)
Definition gx : varg := VArg 6 (VStat 1 true 0).
Definition gy : varg := VArg 3 (VStat 3 false 10).
Definition gB : container := Cont Panel false columnMajor 6 3 20.
Definition g_al (x : nat) : bool := (x <? 17) || c_alloc 4 gB x.
Example C23_example : ger_pre 4 1 g_al gx gy (MArg (whole gB) false) (MArg (whole gB) false).
Proof.
  assert (HB : arg_ok 4 (MArg (whole gB) false)) by (cbv; repeat split; auto; lia).
  assert (HL : live 4 g_al (MArg (whole gB) false)) by (intros a Ha; unfold g_al; cbn in Ha |- *; rewrite Ha; apply orb_true_r).
  constructor; auto; try reflexivity; try (cbn; split; reflexivity).
  - intros i Hi. cbn in *. unfold g_al. apply orb_true_intro. left. apply Nat.ltb_lt. change (nextMultiple 6 4) with 8 in Hi. lia.
  - intros i Hi. cbn in *. unfold g_al. apply orb_true_intro. left. apply Nat.ltb_lt. lia.
  - exact (g_allocated_pad 4 ltac:(lia) g_al (MArg (whole gB) false) HB HL eq_refl eq_refl).
  - exact (g_allocated 4 ltac:(lia) g_al (MArg (whole gB) false) HB HL).
  - intros i j k Hi Hj Hk X. cbn [gx gy x_size x_ptr vaddr] in *. pose proof (in_range gB i j Hi Hj).
    unfold g_addr, v_addr in X. cbn [g_trans g_view whole v_cont v_i v_j Nat.add] in X. change (c_base gB) with 20 in *. lia.
  - intros i j k Hi Hj Hk X. cbn [gx gy x_size x_ptr vaddr] in *. pose proof (in_range gB i j Hi Hj).
    unfold g_addr, v_addr in X. cbn [g_trans g_view whole v_cont v_i v_j Nat.add] in X. change (c_base gB) with 20 in *. lia.
  - intros i j i' j' [Hi Hj] [Hi' Hj'] X. apply (g_distinct 4 ltac:(lia) _ HB) in X; auto.
Qed.
Example C23_example_run : exists m', ger_cm 4 1 Z zops g_al 2%Z gx gy (MArg (whole gB) false) (MArg (whole gB) false) (fun a => Z.of_nat a) = Ok m' /\
  m' (g_addr 4 (MArg (whole gB) false) 5 2) = (2 * 5 * 16 + Z.of_nat (g_addr 4 (MArg (whole gB) false) 5 2))%Z.
Proof. eexists. split; [vm_compute; reflexivity|]. vm_compute. auto. Qed.
