(** Properties_NeedsScalar.v -- C78: exactly which elements must be allocated for the routines that work element by element (iamax, swap, laswp, trsm,
    trsv, row-major ger, assign) and for the unblocked LU factorisations. *)
From Coq Require Import Arith Lia List Bool PeanoNat ZArith.
From Verif Require Import Base Base_Proofs Spec Instances Layout_Model Layout_Proofs Simd_Model Simd_Proofs Reg_Model Reg_Proofs Tile_Model Tile_Proofs Gemm_Model Gemm_Proofs Vec_Proofs Ger_Model Ger_Proofs
  Scan_Proofs Tri_Model Tri_Proofs Ref_Model Ref_Proofs Assign_Model LU_Model LU_Theory LU_Proofs LU_Row_Proofs Needs_Proofs Arg_Proofs Properties_LU Properties_Needs Properties_Tri.
Import ListNotations.

(** A computation that can neither throw nor be ill-formed either completes or is undefined; a loop whose iterations all complete completes. *)
Lemma ou_wr : forall T al (m : mem T) a v, ou (wr al m a v).
Proof. intros. unfold wr. ou_go. Qed.
Ltac ou_all := repeat first [ou_step | apply ou_rd | apply ou_wr].
Lemma wr_each : forall T al (m m' : mem T) a v, wr al m a v = Ok m' -> al a = true.
Proof. intros T al m m' a v E. unfold wr in E. destruct (al a); [auto|discriminate]. Qed.
Lemma for_fine : forall St lo hi (f : nat -> St -> res St) s, (forall k s, lo <= k < hi -> exists s', f k s = Ok s') -> exists s', for_ lo hi f s = Ok s'.
Proof.
  intros St lo hi f s H. destruct (le_lt_dec lo hi) as [L|L].
  - destruct (for_inv St (fun _ _ => True) lo hi f s) as (s' & E & _); auto; [|eauto]. intros k s1 Hk _. destruct (H k s1 Hk) as (s2 & E); eauto.
  - exists s. unfold for_. replace (hi - lo) with 0 by lia. reflexivity.
Qed.
Ltac inv_bind E := let x := fresh "v" in let E1 := fresh "B" in apply bind_ok_inv in E; destruct E as (x & E1 & E).
Ltac fine := repeat (first [rewrite rd_ok by auto | rewrite wr_ok by auto]; cbn [bind]); eauto.

(* ------------------------------------------------------------------ iamax *)
Lemma iamax_each : forall T (O : Ops T) al n x0 x (m : mem T) r, iamax_loop T O al n x0 x m = Ok r -> x0 = x 0 -> forall i, i < n -> al (x i) = true.
Proof.
  intros T O al n x0 x m r E -> i Hi. unfold iamax_loop in E. inv_bind E. inv_bind E. destruct (Nat.eq_dec i 0) as [->|].
  - apply rd_each in B. auto.
  - destruct (for_each _ _ _ _ _ _ B0 i ltac:(lia)) as (s1 & s2 & X). inv_bind X. apply rd_each in B1. auto.
Qed.
(** iamax needs every element of the vector, whatever the values. *)
Theorem C78_iamax : forall SS T (O : Ops T) al x (m : mem T), 0 < SS -> vec_ok SS (x_ptr x) -> 0 < x_size x ->
  ((forall i, i < x_size x -> al (vaddr SS (x_ptr x) i) = true) -> exists r, iamax SS T O al x m = Ok r) /\
  (~ (forall i, i < x_size x -> al (vaddr SS (x_ptr x) i) = true) -> iamax SS T O al x m = UB).
Proof.
  intros SS T O al x m HSS V Hn. split.
  - intros A. destruct (C32_iamax SS T O al x m HSS Hn V A) as (r & E & _). eauto.
  - intros H. assert (Q : ou (iamax SS T O al x m)).
    { unfold iamax. destruct (Nat.eqb_spec (x_size x) 0); [lia|]. unfold iamax_ptr, iamax_loop. ou_all. }
    destruct (ou_cases _ _ Q) as [(r & E)|E]; [exfalso; apply H|exact E].
    unfold iamax in E. destruct (Nat.eqb_spec (x_size x) 0); [lia|]. unfold iamax_ptr in E. intros i Hi.
    apply iamax_each with (i := i) in E; auto; rewrite !vderef_vaddr in * by auto; auto.
Qed.

(* ------------------------------------------------------------------ swap, laswp *)
Lemma swap_each : forall T al n x y (m m' : mem T), swap_loop T al n x y m = Ok m' -> forall i, i < n -> al (x i) = true /\ al (y i) = true.
Proof.
  intros T al n x y m m' E i Hi. unfold swap_loop in E. destruct (for_each _ _ _ _ _ _ E i ltac:(lia)) as (s1 & s2 & X).
  inv_bind X. inv_bind X. apply rd_each in B, B0. auto.
Qed.
Lemma swap_fine : forall T al n x y (m : mem T), (forall i, i < n -> al (x i) = true) -> (forall i, i < n -> al (y i) = true) -> exists m', swap_loop T al n x y m = Ok m'.
Proof. intros T al n x y m Hx Hy. apply for_fine. intros k s Hk. rewrite !rd_ok by (auto with arith; first [apply Hx|apply Hy]; lia). cbn [bind]. rewrite wr_ok by (apply Hx; lia). cbn [bind]. rewrite wr_ok by (apply Hy; lia). eauto. Qed.
(** swap needs every element of both vectors, also when they overlap. *)
Theorem C78_swap : forall SS T al n x y (m : mem T), 0 < SS -> vec_ok SS x -> vec_ok SS y ->
  let memory := forall i, i < n -> al (vaddr SS x i) = true /\ al (vaddr SS y i) = true in
  (memory -> exists m', swap_ptr SS T al n x y m = Ok m') /\ (~ memory -> swap_ptr SS T al n x y m = UB).
Proof.
  intros SS T al n x y m HSS Vx Vy memory. split.
  - intros A. apply swap_fine; intros i Hi; rewrite vderef_vaddr by auto; apply A; auto.
  - intros H. assert (Q : ou (swap_ptr SS T al n x y m)) by (unfold swap_ptr, swap_loop; ou_all).
    destruct (ou_cases _ _ Q) as [(r & E)|E]; [exfalso; apply H|exact E].
    intros i Hi. destruct (swap_each _ _ _ _ _ _ _ E i Hi) as [E1 E2]. rewrite !vderef_vaddr in * by auto. auto.
Qed.
(** laswp needs exactly the two rows of every interchange that is not trivial. *)
Theorem C78_laswp : forall T al A k0 k1 ipiv (m : mem T),
  let memory := forall k j, k0 <= k < k1 -> ipiv k <> k -> j < d_n A -> al (d_at A k j) = true /\ al (d_at A (ipiv k) j) = true in
  (memory -> exists m', laswp T al A k0 k1 ipiv m = Ok m') /\ (~ memory -> laswp T al A k0 k1 ipiv m = UB).
Proof.
  intros T al A k0 k1 ipiv m memory. split.
  - intros H. apply for_fine. intros k s Hk. destruct (Nat.eqb_spec k (ipiv k)); [eauto|]. unfold swap_d. cbn [drow v_size v_at]. rewrite Nat.eqb_refl. cbn [negb].
    destruct (0 <? d_n A); [|eauto]. apply swap_fine; intros i Hi; apply H; auto.
  - intros H. assert (Q : ou (laswp T al A k0 k1 ipiv m)).
    { unfold laswp. apply ou_for. intros k s. destruct (k =? ipiv k); [exact I|]. unfold swap_d. cbn [drow v_size v_at]. rewrite Nat.eqb_refl. cbn [negb].
      destruct (0 <? d_n A); [|exact I]. unfold swap_loop. ou_all. }
    destruct (ou_cases _ _ Q) as [(r & E)|E]; [exfalso; apply H|exact E].
    intros k j Hk Hp Hj. unfold laswp in E. destruct (for_each _ _ _ _ _ _ E k Hk) as (s1 & s2 & X). destruct (Nat.eqb_spec k (ipiv k)); [congruence|].
    unfold swap_d in X. cbn [drow v_size v_at] in X. rewrite Nat.eqb_refl in X. cbn [negb] in X. destruct (Nat.ltb_spec 0 (d_n A)); [|lia].
    apply (swap_each _ _ _ _ _ _ _ X j Hj).
Qed.

(* ------------------------------------------------------------------ trsm, trsv *)
Section Solve.
Variables (T : Type) (O : Ops T) (al : alloc).
Lemma elem_each : forall unit A b x lo hi i (m m' : mem T), trsm_elem T O al unit A b x lo hi i m = Ok m' ->
  al (b i) = true /\ (forall k, lo <= k < hi -> al (A i k) = true /\ al (x k) = true) /\ (unit = false -> al (A i i) = true) /\ al (x i) = true.
Proof.
  intros unit A b x lo hi i m m' E. unfold trsm_elem in E. inv_bind E. inv_bind E. apply rd_each in B. split; auto. split.
  - intros k Hk. unfold acc_sub in B0. destruct (for_each _ _ _ _ _ _ B0 k Hk) as (s1 & s2 & X). inv_bind X. inv_bind X. apply rd_each in B1, B2. auto.
  - destruct unit; [apply wr_each in E; split; auto; discriminate|]. inv_bind E. apply rd_each in B1. apply wr_each in E. auto.
Qed.
Lemma elem_fine : forall unit A b x lo hi i (m : mem T), al (b i) = true -> (forall k, lo <= k < hi -> al (A i k) = true /\ al (x k) = true) ->
  (unit = false -> al (A i i) = true) -> al (x i) = true -> exists m', trsm_elem T O al unit A b x lo hi i m = Ok m'.
Proof.
  intros unit A b x lo hi i m Hb Hk Hd Hx. unfold trsm_elem. rewrite rd_ok by auto. cbn [bind]. unfold acc_sub.
  match goal with |- context [for_ lo hi ?f ?s] => destruct (for_fine T lo hi f s) as (acc & E) end.
  - intros k s K. destruct (Hk k K) as [H1 H2]. rewrite !rd_ok by auto. cbn [bind]. eauto.
  - rewrite E. cbn [bind]. destruct unit; [fine|]. rewrite rd_ok by auto. cbn [bind]. fine.
Qed.
Lemma ou_elem : forall unit A b x lo hi i (m : mem T), ou (trsm_elem T O al unit A b x lo hi i m).
Proof. intros. unfold trsm_elem, acc_sub. ou_all. Qed.
End Solve.

(** trsm needs B, X, the strict triangle of A and, unless the triangle is declared to have ones on the diagonal, the diagonal: in particular nothing of
    the other triangle; with an empty right-hand side it needs nothing. *)
Theorem C78_trsm : forall T (O : Ops T) al ul unit A B X (m : mem T), d_m A = d_m B -> d_n A = d_m B -> d_m X = d_m B -> d_n X = d_n B ->
  let memory := (forall i k, i < d_m B -> k < d_m B -> referenced ul unit i k -> al (d_at A i k) = true) /\
                allocated al (d_m B) (d_n B) (d_at B) /\ allocated al (d_m B) (d_n B) (d_at X) in
  (d_n B = 0 -> trsm T O al ul unit A B X m = Ok m) /\ (memory -> exists m', trsm T O al ul unit A B X m = Ok m') /\
  (0 < d_n B -> ~ memory -> trsm T O al ul unit A B X m = UB).
Proof.
  intros T O al ul unit A B X m a1 a2 x1 x2 memory. unfold trsm. rewrite a1, a2, x1, x2, !Nat.eqb_refl. cbn [negb orb]. split; [|split].
  - intros ->. reflexivity.
  - intros (mA & mB & mX). apply for_fine. intros j s Hj. destruct ul; apply for_fine; intros i s' Hi; (apply elem_fine; [apply mB; lia|intros k Hk; split; [apply mA; [lia|lia|left; lia]|apply mX; lia]|intros Hu; apply mA; [lia|lia|right; auto]|apply mX; lia]).
  - intros HN H. match goal with |- ?e = UB => assert (Q : ou e) end.
    { apply ou_for. intros j s. destruct ul; apply ou_for; intros i s'; apply ou_elem. }
    destruct (ou_cases _ _ Q) as [(r & E)|E]; [exfalso; apply H|exact E].
    assert (K : forall i j, i < d_m B -> j < d_n B -> al (d_at B i j) = true /\ (unit = false -> al (d_at A i i) = true) /\ al (d_at X i j) = true /\
      forall k, k < d_m B -> match ul with Lower => k < i | Upper => i < k end -> al (d_at A i k) = true).
    { intros i j Hi Hj. destruct (for_each _ _ _ _ _ _ E j ltac:(lia)) as (s1 & s2 & Y). destruct ul.
      - destruct (for_each _ _ _ _ _ _ Y i ltac:(lia)) as (s3 & s4 & Z). apply elem_each in Z. destruct Z as (Z1 & Z2 & Z3 & Z4).
        split; auto. split; auto. split; auto. intros k Hk Hki. apply Z2. lia.
      - destruct (for_each _ _ _ _ _ _ Y (d_m B - 1 - i) ltac:(lia)) as (s3 & s4 & Z). cbv zeta in Z. replace (d_m B - 1 - (d_m B - 1 - i)) with i in Z by lia.
        apply elem_each in Z. destruct Z as (Z1 & Z2 & Z3 & Z4). split; auto. split; auto. split; auto. intros k Hk Hki. apply Z2. lia. }
    split; [|split; intros i j Hi Hj; apply (K i j Hi Hj)].
    intros i k Hi Hk [R|[-> R]]; destruct (K i 0 Hi HN) as (_ & K1 & _ & K2); auto.
Qed.
(** trsv likewise. *)
Theorem C78_trsv : forall T (O : Ops T) al ul A b x (m : mem T), d_m A = v_size b -> d_n A = v_size b ->
  let memory := (forall i k, i < v_size b -> k < v_size b -> referenced ul false i k -> al (d_at A i k) = true) /\
                forall i, i < v_size b -> al (v_at b i) = true /\ al (v_at x i) = true in
  (memory -> exists m', trsv T O al ul A b x m = Ok m') /\ (~ memory -> trsv T O al ul A b x m = UB).
Proof.
  intros T O al ul A b x m a1 a2 memory. unfold trsv. rewrite a1, a2, !Nat.eqb_refl. cbn [negb orb]. split.
  - intros (mA & mB). destruct ul; apply for_fine; intros i s' Hi; (apply elem_fine; [apply mB; lia|intros k Hk; split; [apply mA; [lia|lia|left; lia]|apply mB; lia]|intros Hu; apply mA; [lia|lia|right; auto]|apply mB; lia]).
  - intros H. match goal with |- ?e = UB => assert (Q : ou e) end.
    { destruct ul; apply ou_for; intros i s'; apply ou_elem. }
    destruct (ou_cases _ _ Q) as [(r & E)|E]; [exfalso; apply H|exact E].
    assert (K : forall i, i < v_size b -> al (v_at b i) = true /\ al (d_at A i i) = true /\ al (v_at x i) = true /\
      forall k, k < v_size b -> match ul with Lower => k < i | Upper => i < k end -> al (d_at A i k) = true).
    { intros i Hi. destruct ul.
      - destruct (for_each _ _ _ _ _ _ E i ltac:(lia)) as (s3 & s4 & Z). apply elem_each in Z. destruct Z as (Z1 & Z2 & Z3 & Z4).
        split; auto. split; auto. split; auto. intros k Hk Hki. apply Z2. lia.
      - destruct (for_each _ _ _ _ _ _ E (v_size b - 1 - i) ltac:(lia)) as (s3 & s4 & Z). cbv zeta in Z. replace (v_size b - 1 - (v_size b - 1 - i)) with i in Z by lia.
        apply elem_each in Z. destruct Z as (Z1 & Z2 & Z3 & Z4). split; auto. split; auto. split; auto. intros k Hk Hki. apply Z2. lia. }
    split; [|intros i Hi; split; apply (K i Hi)].
    intros i k Hi Hk [R|[-> R]]; destruct (K i Hi) as (_ & K1 & _ & K2); auto.
Qed.

(* ------------------------------------------------------------------ row-major ger, assign *)
Theorem C78_ger_row_major : forall SS T (O : Ops T) al alpha x y A B (m : mem T), g_rows A = x_size x -> g_cols A = x_size y ->
  let memory := forall i j, i < x_size x -> j < x_size y -> al (vaddr SS (x_ptr x) i) = true /\ al (vaddr SS (x_ptr y) j) = true /\ al (g_addr SS A i j) = true /\ al (g_addr SS B i j) = true in
  (memory -> exists m', ger_rm SS T O al alpha x y A B m = Ok m') /\ (~ memory -> ger_rm SS T O al alpha x y A B m = UB).
Proof.
  intros SS T O al alpha x y A B m z1 z2 memory. unfold ger_rm. rewrite z1, z2, !Nat.eqb_refl. cbn [negb andb]. split.
  - intros H. apply for_fine. intros i s Hi. apply for_fine. intros j s' Hj. destruct (H i j ltac:(lia) ltac:(lia)) as (H1 & H2 & H3 & H4).
    repeat (rewrite rd_ok by auto; cbn [bind]). rewrite wr_ok by auto. eauto.
  - intros H. match goal with |- ?e = UB => assert (Q : ou e) by ou_all end.
    destruct (ou_cases _ _ Q) as [(r & E)|E]; [exfalso; apply H|exact E].
    intros i j Hi Hj. destruct (for_each _ _ _ _ _ _ E i ltac:(lia)) as (s1 & s2 & X). destruct (for_each _ _ _ _ _ _ X j ltac:(lia)) as (s3 & s4 & Y).
    inv_bind Y. inv_bind Y. inv_bind Y. apply rd_each in B0, B1, B2. apply wr_each in Y. auto.
Qed.
Theorem C78_assign : forall SS T al a b (m : mem T), g_rows b = g_rows a -> g_cols b = g_cols a ->
  let memory := allocated al (g_rows a) (g_cols a) (g_addr SS a) /\ allocated al (g_rows a) (g_cols a) (g_addr SS b) in
  (memory -> exists m', m_assign SS T al a b m = Ok m') /\ (~ memory -> m_assign SS T al a b m = UB).
Proof.
  intros SS T al a b m z1 z2 memory. unfold m_assign. rewrite z1, z2, !Nat.eqb_refl. cbn [negb orb]. split.
  - intros [H1 H2]. apply for_fine. intros i s Hi. apply for_fine. intros j s' Hj. rewrite rd_ok by (apply H2; lia). cbn [bind]. rewrite wr_ok by (apply H1; lia). eauto.
  - intros H. match goal with |- ?e = UB => assert (Q : ou e) by ou_all end.
    destruct (ou_cases _ _ Q) as [(r & E)|E]; [exfalso; apply H|exact E].
    split; intros i j Hi Hj; destruct (for_each _ _ _ _ _ _ E i ltac:(lia)) as (s1 & s2 & X); destruct (for_each _ _ _ _ _ _ X j ltac:(lia)) as (s3 & s4 & Y);
      inv_bind Y; apply rd_each in B; apply wr_each in Y; auto.
Qed.

(* ------------------------------------------------------------------ getf2 *)
(** Completes, is undefined, or throws invalid_argument. *)
Definition out {X} (r : res X) : Prop := match r with Ok _ | UB | Throw InvalidArgument => True | _ => False end.
Lemma out_ou : forall X (r : res X), ou r -> out r.
Proof. intros X [] H; cbn in *; auto; contradiction. Qed.
Lemma out_bind : forall X Y (e : res X) (f : X -> res Y), out e -> (forall x, out (f x)) -> out (bind e f).
Proof. intros X Y [] f He Hf; cbn in *; auto. Qed.
Lemma out_for : forall St lo hi (f : nat -> St -> res St) s, (forall k s, out (f k s)) -> out (for_ lo hi f s).
Proof. intros St lo hi f s H. unfold for_. generalize (hi - lo) as n. intros n. revert lo s. induction n as [|n IH]; intros lo s; cbn [loop]; [exact I|]. apply out_bind; auto. Qed.
Lemma out_cases : forall X (r : res X), out r -> (exists x, r = Ok x) \/ r = UB \/ r = Throw InvalidArgument.
Proof. intros X [x| |e| |] H; cbn in H; try contradiction; eauto. destruct e; try contradiction; auto. Qed.

Section Unblocked.
Variables (SS : nat) (HSS : 0 < SS) (cc : nat) (Hcc : 0 < cc) (T : Type) (O : Ops T) (al : alloc).
(** What the rank-1 update accesses, for operands that are not padded. *)
Lemma ger_ptr_each : forall M N alpha x y A B (m m' : mem T), 0 < M -> 0 < N -> vptr_ok SS x -> vec_ok SS y ->
  mptr_wf SS A -> mp_so A = columnMajor -> lane_ok SS A -> mptr_wf SS B -> mp_so B = columnMajor -> mp_af A = false ->
  ger_ptr SS cc T O al M N alpha x y A B m = Ok m' ->
  (forall i, i < nextMultiple M (cc * SS) -> al (vaddr SS x i) = true) /\ (forall j, j < N -> al (vaddr SS y j) = true) /\
  (forall i j, i < M -> j < N -> al (addr SS A i j) = true) /\ (forall i j, i < M -> j < N -> al (addr SS B i j) = true).
Proof.
  intros M N alpha x y A B m m' HM HN Vx Vy WA SA LA WB SB AF E. assert (HT : 0 < cc * SS) by nia.
  unfold ger_ptr in E. rewrite SA, SB in E. cbn [order_eqb andb negb] in E.
  assert (CE : forall c, In c (tile (cc * SS) (cc * SS) columnMajor M N) -> call_ok (cc * SS) (cc * SS) M N c -> k_i c mod SS = 0 ->
      (forall i, i < k_rm c * cc * SS -> al (vaddr SS x (k_i c + i)) = true) /\
      (forall j, j < k_nn c -> al (vaddr SS y (k_j c + j)) = true) /\
      (forall i j, i < k_rm c * cc * SS -> i < k_m c -> j < k_nn c -> al (addr SS A (k_i c + i) (k_j c + j)) = true) /\
      (forall i j, i < k_m c -> j < k_nn c -> al (addr SS B (k_i c + i) (k_j c + j)) = true)).
  { intros c Hc Hok Hi. destruct (foldM_each _ _ _ _ _ _ E c Hc) as (s1 & s2 & X).
    apply (ger_call_each SS HSS cc Hcc T O) with (M := M) (N := N) in X; auto. rewrite AF in X. exact X. }
  split; [|split; [|split]].
  - intros i Hi. destruct (pad_call (cc * SS) M N columnMajor i 0 HT (cc * SS) HT Hi HN) as (c & Hc & Hok & R1 & _ & _ & R2).
    destruct (CE c Hc Hok (mod_of_cc SS cc _ HSS Hcc R2)) as (E1 & _). replace i with (k_i c + (i - k_i c)) by lia. apply E1. nia.
  - intros j Hj. destruct (cover_call (cc * SS) M N columnMajor 0 j (cc * SS) HT HT HM Hj) as (c & Hc & Hok & [R1 R3] & R2).
    destruct (CE c Hc Hok (mod_of_cc SS cc _ HSS Hcc R2)) as (_ & E2 & _). replace j with (k_j c + (j - k_j c)) by lia. apply E2. lia.
  - intros i j Hi Hj. destruct (cover_call (cc * SS) M N columnMajor i j (cc * SS) HT HT Hi Hj) as (c & Hc & Hok & [R1 R3] & R2).
    destruct (CE c Hc Hok (mod_of_cc SS cc _ HSS Hcc R2)) as (_ & _ & E3 & _). replace i with (k_i c + (i - k_i c)) by lia. replace j with (k_j c + (j - k_j c)) by lia.
    destruct Hok as (_ & _ & _ & _ & T5 & _). apply E3; nia.
  - intros i j Hi Hj. destruct (cover_call (cc * SS) M N columnMajor i j (cc * SS) HT HT Hi Hj) as (c & Hc & Hok & [R1 R3] & R2).
    destruct (CE c Hc Hok (mod_of_cc SS cc _ HSS Hcc R2)) as (_ & _ & _ & E4). replace i with (k_i c + (i - k_i c)) by lia. replace j with (k_j c + (j - k_j c)) by lia. apply E4; lia.
Qed.
Lemma ou_ger_ptr : forall M N alpha x y A B (m : mem T), along_major x -> mp_so A = columnMajor -> mp_so B = columnMajor -> mp_kind B = Dense ->
  ou (ger_ptr SS cc T O al M N alpha x y A B m).
Proof.
  intros M N alpha x y A B m Vx SA SB KB. unfold ger_ptr. rewrite SA, SB. cbn [order_eqb andb negb]. apply ou_foldM. intros c s _.
  assert (St : mp_kind B = Panel -> mp_af B = true) by (rewrite KB; discriminate).
  unfold ger_call. destruct (k_full c); (apply ou_bind; [first [apply ou_loadb|apply ou_loadb_mn]|intros r1; apply ou_bind; [first [apply ou_ger_alpha|apply ou_ger_alpha_mn]|intros r2; first [apply ou_store|apply ou_store_mn]]]);
        cbn [poff mp_so mp_kind mp_af]; auto; apply along_voff; auto.
Qed.

Variables (M N : nat) (A : mptr).
Hypothesis WF : mptr_wf SS A.
Hypothesis KD : mp_kind A = Dense.
Hypothesis SO : mp_so A = columnMajor.
Notation ad := (addr SS A).
Definition getf2_ptr_memory : Prop :=
  (forall i j, i < M -> j < N -> 1 < M \/ j = 0 -> al (ad i j) = true) /\
  forall k i, k + 1 < M -> k + 1 < N -> i < nextMultiple (M - k - 1) (cc * SS) -> al (ad (k + 1 + i) k) = true.
Notation at_ := (poff SS (punalign SS A)).

Lemma step_each : forall p0 k s s', k < M -> k < N -> getf2_step SS cc T O al M N A p0 k s = Ok s' ->
  (forall i, k <= i < M -> al (ad i k) = true) /\
  (k + 1 < M -> k + 1 < N -> (forall i, i < nextMultiple (M - k - 1) (cc * SS) -> al (ad (k + 1 + i) k) = true) /\
     (forall i j, k <= i < M -> k < j < N -> al (ad i j) = true)).
Proof.
  intros p0 k [m p] s' HkM HkN E. unfold getf2_step in E. inv_bind E. cbv zeta in E. inv_bind E. inv_bind E. destruct (oeqb O v1 (o0 O)); [discriminate|].
  inv_bind E. inv_bind E. split.
  - intros i Hi. unfold iamax_ptr in B. apply iamax_each with (i := i - k) in B; try lia.
    + rewrite (vderef_vaddr SS HSS) in B by (apply (at_wf SS HSS); auto). cbn [vaddr] in B. rewrite (at_addr SS HSS) in B by auto. rewrite Nat.add_0_r in B. replace (k + (i - k)) with i in B by lia. exact B.
    + rewrite (vderef_vaddr SS HSS); auto. apply (at_wf SS HSS); auto.
  - intros H1 H2. rewrite (proj2 (Nat.ltb_lt _ _) H1), (proj2 (Nat.ltb_lt _ _) H2) in B3. cbn [andb] in B3.
    apply ger_ptr_each in B3; try lia; try exact SO; try reflexivity; try (apply (at_wf SS HSS); auto; fail).
    + destruct B3 as (G1 & G2 & G3 & _). split.
      * intros i Hi. specialize (G1 i Hi). cbn [vaddr] in G1. rewrite (at_addr SS HSS), Nat.add_0_r in G1 by auto. exact G1.
      * intros i j Hi Hj. destruct (Nat.eq_dec i k) as [->|].
        -- specialize (G2 (j - (k + 1)) ltac:(lia)). cbn [vaddr] in G2. rewrite (at_addr SS HSS), Nat.add_0_r in G2 by auto. replace (k + 1 + (j - (k + 1))) with j in G2 by lia. exact G2.
        -- specialize (G3 (i - (k + 1)) (j - (k + 1)) ltac:(lia) ltac:(lia)). rewrite (at_addr SS HSS) in G3 by auto.
           replace (k + 1 + (i - (k + 1))) with i in G3 by lia. replace (k + 1 + (j - (k + 1))) with j in G3 by lia. exact G3.
    + split; [apply (at_wf SS HSS); auto|]. split; [exact SO|]. intros X. exfalso. pose proof (eq_trans (eq_sym X) KD) as Y. discriminate Y.
    + intros X. pose proof (eq_trans (eq_sym X) KD) as Y. discriminate Y.
Qed.
Lemma getf2_each : forall p0 s s', 0 < M -> 0 < N -> getf2_ptr SS cc T O al M N A p0 s = Ok s' -> getf2_ptr_memory.
Proof.
  intros p0 s s' HM HN E. unfold getf2_ptr in E. split.
  - intros i j Hi Hj H. destruct (for_each _ _ _ _ _ _ E 0 ltac:(lia)) as (s1 & s2 & X). apply step_each in X; auto. destruct X as [X1 X2].
    destruct (Nat.eq_dec j 0) as [->|]; [apply X1; lia|]. apply (proj2 (X2 ltac:(lia) ltac:(lia))); lia.
  - intros k i H1 H2 Hi. destruct (for_each _ _ _ _ _ _ E k ltac:(lia)) as (s1 & s2 & X). apply step_each in X; [|lia|lia]. apply (proj1 (proj2 X H1 H2)); auto.
Qed.
Lemma out_getf2 : forall p0 s, out (getf2_ptr SS cc T O al M N A p0 s).
Proof.
  intros p0 s. unfold getf2_ptr. apply out_for. intros k [m p]. unfold getf2_step. apply out_bind; [apply out_ou; unfold iamax_ptr, iamax_loop; ou_all|]. intros r. cbv zeta.
  apply out_bind; [apply out_ou; unfold swap_ptr, swap_loop; ou_all|]. intros m1. apply out_bind; [apply out_ou, ou_rd|]. intros d. destruct (oeqb O d (o0 O)); [exact I|].
  apply out_bind; [apply out_ou; ou_all|]. intros m2. apply out_bind; [|intros; exact I]. apply out_ou. destruct (_ && _); [|exact I].
  apply ou_ger_ptr; auto. cbn [along_major]. replace (mp_so (at_ (k + 1) k)) with columnMajor by (symmetry; exact SO). reflexivity.
Qed.
(** A matrix of one row: only its first element is touched. *)
Lemma getf2_one_row : forall p0 s, M = 1 -> 0 < N -> al (ad 0 0) = true -> (exists s', getf2_ptr SS cc T O al M N A p0 s = Ok s') \/ getf2_ptr SS cc T O al M N A p0 s = Throw InvalidArgument.
Proof.
  intros p0 [m p] HM HN H. unfold getf2_ptr. rewrite HM. replace (min 1 N) with 1 by lia.
  assert (I : iamax_ptr SS T O al 1 (VMat columnVector (at_ 0 0)) m = Ok 0).
  { unfold iamax_ptr, iamax_loop. rewrite rd_ok; [reflexivity|]. cbn [vaddr]. rewrite (at_addr SS HSS) by auto. exact H. }
  assert (E : getf2_step SS cc T O al 1 N A p0 0 (m, p) = if oeqb O (m (ad 0 0)) (o0 O) then Throw InvalidArgument else Ok (m, pupd p (p0 + 0) 0)).
  { unfold getf2_step. change (1 - 0) with 1. rewrite I. cbn [bind Nat.add Nat.eqb negb]. rewrite (deref_addr SS HSS) by auto. rewrite rd_ok by auto. cbn [bind]. destruct (oeqb O _ (o0 O)); reflexivity. }
  change (for_ 0 1 (getf2_step SS cc T O al 1 N A p0) (m, p)) with (bind (getf2_step SS cc T O al 1 N A p0 0 (m, p)) (fun s => Ok s)). rewrite E.
  destruct (oeqb O _ (o0 O)); [right; reflexivity|left; eexists; reflexivity].
Qed.
End Unblocked.

(** The memory of the column-major getf2: all elements (of a matrix with a single row only the first one), and below the last row what completes the last tile of
    the multipliers of each column but the last. *)
Definition getf2_memory (SS cc : nat) (al : alloc) (A : marg) : Prop :=
  (forall i j, i < g_rows A -> j < g_cols A -> 1 < g_rows A \/ j = 0 -> al (g_addr SS A i j) = true) /\
  forall k i, k + 1 < g_rows A -> k + 1 < g_cols A -> i < nextMultiple (g_rows A - k - 1) (cc * SS) -> al (g_addr SS A (k + 1 + i) k) = true.

Theorem C78_getf2 : forall SS cc T (O : Ops T) al A s, 0 < SS -> 0 < cc -> arg_ok SS A -> c_kind (v_cont (g_view A)) = Dense -> g_so A = columnMajor ->
  (g_rows A = 0 \/ g_cols A = 0 -> getf2_cm SS cc T O al A s = Ok s) /\
  (getf2_memory SS cc al A -> (exists s', getf2_cm SS cc T O al A s = Ok s') \/ getf2_cm SS cc T O al A s = Throw InvalidArgument) /\
  (0 < g_rows A -> 0 < g_cols A -> ~ getf2_memory SS cc al A -> getf2_cm SS cc T O al A s = UB \/ getf2_cm SS cc T O al A s = Throw InvalidArgument).
Proof.
  intros SS cc T O al A s HSS Hcc AOK KD SO. pose proof (g_ptr_wf SS HSS A AOK) as W.
  assert (EA : forall i j, addr SS (g_ptr SS A) i j = g_addr SS A i j) by (intros; apply g_ptr_addr; auto). unfold getf2_cm. split; [|split].
  - intros Z. unfold getf2_ptr. replace (min (g_rows A) (g_cols A)) with 0 by lia. reflexivity.
  - intros [H1 H2]. destruct s as [m p]. destruct (Nat.eq_dec (g_cols A) 0) as [Z|HN].
    { left. unfold getf2_ptr. replace (min (g_rows A) (g_cols A)) with 0 by lia. eexists. reflexivity. }
    destruct (Nat.eq_dec (g_rows A) 1) as [E1|N1].
    + apply (getf2_one_row SS HSS cc Hcc T O al (g_rows A) (g_cols A) (g_ptr SS A) W); auto; try lia. rewrite EA. apply H1; lia.
    + assert (P : getf2_pre SS cc al A). { constructor; auto. intros i j Hi Hj. apply H1; lia. }
      destruct (C35_getf2_column_major_ops SS cc T O al A m p HSS Hcc P) as [(m' & p' & E & _)|[E _]]; [left; exists (m', p'); exact E|right; exact E].
  - intros HM HN H. destruct (out_cases _ _ (out_getf2 SS cc T O al (g_rows A) (g_cols A) (g_ptr SS A) ltac:(rewrite g_ptr_kind; auto) ltac:(rewrite g_ptr_so; auto) 0 s)) as [(s' & E)|E]; auto.
    exfalso. apply H. apply (getf2_each SS HSS cc Hcc T O al) in E; auto; [|rewrite g_ptr_kind; auto|rewrite g_ptr_so; auto].
    destruct E as [E1 E2]. split; [intros i j Hi Hj Hx; rewrite <- EA; auto|intros k i H1 H2 Hi; rewrite <- EA; auto].
Qed.

(** The row-major forms need every element (of a matrix with a single row only the first one) and nothing more. *)
Definition rows_memory (al : alloc) (A : dmat) : Prop := forall i j, i < d_m A -> j < d_n A -> 1 < d_m A \/ j = 0 -> al (d_at A i j) = true.

Theorem C78_getf2_row_major : forall T (O : Ops T) al A s,
  (rows_memory al A -> (exists s', getf2_rm T O al A s = Ok s') \/ getf2_rm T O al A s = Throw InvalidArgument) /\
  (0 < d_m A -> 0 < d_n A -> ~ rows_memory al A -> getf2_rm T O al A s = UB \/ getf2_rm T O al A s = Throw InvalidArgument).
Proof.
  intros T O al A s. split.
  - intros H. unfold getf2_rm. destruct (for_inv_throw (mem T * piv) (fun _ _ => True) True InvalidArgument 0 (min (d_m A) (d_n A)) (getf2_rm_step T O al A) s) as [(s' & E & _)|[E _]]; eauto; try lia.
    intros k [m p] Hk _. unfold getf2_rm_step, iamax_d. cbn [v_size v_at]. destruct (Nat.eqb_spec (d_m A - k) 0); [lia|].
    destruct (iamax_loop_ok T O al (d_m A - k) (d_at A (k + 0) k) (fun i => d_at A (k + i) k) m) as (r & E & Hr & _); try lia; auto.
    { intros i Hi. apply H; lia. }
    rewrite E. cbn [bind].
    assert (S : exists m1, (if negb (r + k =? k) then swap_d T al (drow A k) (drow A (r + k)) m else Ok m) = Ok m1).
    { destruct (Nat.eqb_spec (r + k) k); cbn [negb]; [eauto|]. unfold swap_d. cbn [drow v_size v_at]. rewrite Nat.eqb_refl. cbn [negb]. destruct (0 <? d_n A); [|eauto].
      apply swap_fine; intros i Hi; apply H; lia. }
    destruct S as (m1 & E1). rewrite E1. cbn [bind]. rewrite rd_ok by (apply H; lia). cbn [bind]. destruct (oeqb O _ (o0 O)); [right; auto|left].
    match goal with |- context [for_ (k + 1) (d_m A) ?f m1] => destruct (for_fine (mem T) (k + 1) (d_m A) f m1) as (m2 & E2) end.
    { intros i m' Hi. rewrite rd_ok by (apply H; lia). cbn [bind]. rewrite wr_ok by (apply H; lia). eauto. }
    rewrite E2. cbn [bind].
    match goal with |- context [for_ 0 (d_m A - k - 1) ?f m2] => destruct (for_fine (mem T) 0 (d_m A - k - 1) f m2) as (m3 & E3) end.
    { intros i m' Hi. apply for_fine. intros j m'' Hj. repeat (rewrite rd_ok by (apply H; lia); cbn [bind]). rewrite wr_ok by (apply H; lia). eauto. }
    rewrite E3. cbn [bind]. eauto.
  - intros HM HN H. assert (Q : out (getf2_rm T O al A s)).
    { unfold getf2_rm. apply out_for. intros k [m p]. unfold getf2_rm_step, iamax_d. cbn [v_size v_at].
      apply out_bind; [destruct (_ =? 0); [exact I|]; apply out_ou; unfold iamax_loop; ou_all|]. intros r. cbv zeta.
      apply out_bind. { destruct (negb _); [|exact I]. unfold swap_d. cbn [drow v_size v_at]. rewrite Nat.eqb_refl. cbn [negb]. destruct (0 <? d_n A); [|exact I]. apply out_ou. unfold swap_loop. ou_all. }
      intros m1. apply out_bind; [apply out_ou, ou_rd|]. intros d. destruct (oeqb O d (o0 O)); [exact I|]. apply out_ou. ou_all. }
    destruct (out_cases _ _ Q) as [(s' & E)|E]; auto. exfalso. apply H.
    unfold getf2_rm in E. destruct (for_each _ _ _ _ _ _ E 0 ltac:(lia)) as ([m p] & s2 & X). unfold getf2_rm_step, iamax_d in X. cbn [v_size v_at] in X.
    destruct (Nat.eqb_spec (d_m A - 0) 0); [lia|]. inv_bind X. cbv zeta in X. inv_bind X. inv_bind X. destruct (oeqb O v1 (o0 O)); [discriminate|]. inv_bind X. inv_bind X.
    intros i j Hi Hj Hx. destruct (Nat.eq_dec j 0) as [->|].
    + apply iamax_each with (i := i) in B; auto; try lia. 
    + destruct (Nat.eq_dec i 0) as [->|].
      * destruct (for_each _ _ _ _ _ _ B3 0 ltac:(lia)) as (s1 & s3 & Y). destruct (for_each _ _ _ _ _ _ Y (j - 1) ltac:(lia)) as (s4 & s5 & Z).
        inv_bind Z. inv_bind Z. inv_bind Z. apply rd_each in B6. replace (0 + 1 + (j - 1)) with j in B6 by lia. exact B6.
      * destruct (for_each _ _ _ _ _ _ B3 (i - 1) ltac:(lia)) as (s1 & s3 & Y). destruct (for_each _ _ _ _ _ _ Y (j - 1) ltac:(lia)) as (s4 & s5 & Z).
        inv_bind Z. apply rd_each in B4. replace (0 + 1 + (j - 1)) with j in B4 by lia. replace (0 + 1 + (i - 1)) with i in B4 by lia. exact B4.
Qed.
Theorem C78_getrf_row_major : forall T (O : Ops T) al A s,
  (rows_memory al A -> exists s', getrf_rm T O al A s = Ok s') /\
  (0 < d_m A -> 0 < d_n A -> ~ rows_memory al A -> getrf_rm T O al A s = UB).
Proof.
  intros T O al A s. split.
  - intros H. apply for_fine. intros k [m p] Hk. unfold getrf_rm_step. rewrite rd_ok by (apply H; lia). cbn [bind].
    match goal with |- context [for_ (k + 1) (d_m A) ?f m] => destruct (for_fine (mem T) (k + 1) (d_m A) f m) as (m2 & E2) end.
    { intros i m' Hi. rewrite rd_ok by (apply H; lia). cbn [bind]. rewrite wr_ok by (apply H; lia). eauto. }
    rewrite E2. cbn [bind].
    match goal with |- context [for_ (k + 1) (d_n A) ?f m2] => destruct (for_fine (mem T) (k + 1) (d_n A) f m2) as (m3 & E3) end.
    { intros i m' Hi. apply for_fine. intros j m'' Hj. repeat (rewrite rd_ok by (apply H; lia); cbn [bind]). rewrite wr_ok by (apply H; lia). eauto. }
    rewrite E3. cbn [bind]. eauto.
  - intros HM HN H. assert (Q : ou (getrf_rm T O al A s)).
    { unfold getrf_rm. apply ou_for. intros k [m p]. unfold getrf_rm_step. ou_all. }
    destruct (ou_cases _ _ Q) as [(s' & E)|E]; auto. exfalso. apply H.
    unfold getrf_rm in E. destruct (for_each _ _ _ _ _ _ E 0 ltac:(lia)) as ([m p] & s2 & X). unfold getrf_rm_step in X. cbv zeta in X.
    inv_bind X. inv_bind X. inv_bind X. intros i j Hi Hj Hx. destruct (Nat.eq_dec j 0) as [->|].
    + destruct (Nat.eq_dec i 0) as [->|]; [apply rd_each in B; exact B|]. destruct (for_each _ _ _ _ _ _ B0 i ltac:(lia)) as (s1 & s3 & Y). inv_bind Y. apply rd_each in B2. exact B2.
    + destruct (for_each _ _ _ _ _ _ B1 j ltac:(lia)) as (s1 & s3 & Y). destruct (Nat.eq_dec i 0) as [->|].
      * destruct (for_each _ _ _ _ _ _ Y 1 ltac:(lia)) as (s4 & s5 & Z). inv_bind Z. inv_bind Z. inv_bind Z. apply rd_each in B4. exact B4.
      * destruct (for_each _ _ _ _ _ _ Y i ltac:(lia)) as (s4 & s5 & Z). inv_bind Z. apply rd_each in B2. exact B2.
Qed.

(** A 3-by-3 matrix in 12 allocated doubles (columns padded to four) has the memory getf2 needs with tiles of four rows: the multipliers of the first column are read up to
    address 4, those of the second up to address 9.  Without the last element of the third column the call is undefined or throws; a lower triangular solve does not need it. *)
Definition ns_A : marg := MArg (whole (Cont Dense false columnMajor 3 3 0)) false.
Definition ns_mem : mem Z := fun a => nth a [2; 0; 0; 0; 0; 3; 0; 0; 0; 0; 5; 0]%Z 0%Z.
Example C78_getf2_example :
  (getf2_memory 4 1 (fun a => a <? 12) ns_A) /\ ~ getf2_memory 4 1 (fun a => a <? 10) ns_A /\
  getf2_cm 4 1 Z zops (fun a => a <? 10) ns_A (ns_mem, fun _ => 0) = UB.
Proof.
  split; [|split].
  - split; [intros i j Hi Hj _; cbn in Hi, Hj|intros k i Hk Hk' Hi; cbn in Hk, Hk', Hi].
    + destruct i as [|[|[|]]], j as [|[|[|]]]; try lia; reflexivity.
    + assert (i < 4). { destruct k as [|[|]]; cbn in Hi; lia. } destruct k as [|[|]]; [| |lia]; destruct i as [|[|[|[|]]]]; try lia; reflexivity.
  - intros [H _]. specialize (H 2 2 ltac:(cbn; lia) ltac:(cbn; lia) ltac:(cbn; lia)). discriminate H.
  - reflexivity.
Qed.
Example C78_trsm_example : let A := DMat 3 3 (fun i j => i + 3 * j) in let B := DMat 3 2 (fun i j => 9 + i + 3 * j) in let al := fun a => negb (a =? 0) && negb (a =? 4) && negb (a =? 8) && negb (a =? 3) && (a <? 15) in
  (exists m', trsm Z zops al Lower true A B B (fun _ => 1%Z) = Ok m') /\ trsm Z zops al Lower false A B B (fun _ => 1%Z) = UB /\ trsm Z zops al Upper true A B B (fun _ => 1%Z) = UB.
Proof. cbv zeta. split; [eexists; reflexivity|]. split; reflexivity. Qed.
Example C78_laswp_example : let A := DMat 3 2 (fun i j => i + 3 * j) in let al := fun a => negb (a mod 3 =? 1) in
  (exists m', laswp Z al A 0 2 (fun k => if k =? 0 then 2 else k) (fun _ => 0%Z) = Ok m') /\ laswp Z al A 0 2 (fun k => 2) (fun _ => 0%Z) = UB.
Proof. cbv zeta. split; [eexists; reflexivity|reflexivity]. Qed.

(* ------------------------------------------------------------------ in the library's own containers *)
(** A dense column-major container holds the memory its factorisation needs, except - with two SIMD registers per tile (NEON) - when it has at least two columns, not more
    columns than rows, and fits into one SIMD register per column. *)
Theorem C78_getf2_in_container : forall SS cc c, 0 < SS -> cc = 1 \/ cc = 2 -> c_kind c = Dense -> c_so c = columnMajor ->
  (getf2_memory SS cc (c_alloc SS c) (MArg (whole c) false) <-> ~ (cc = 2 /\ 2 <= c_cols c <= c_rows c /\ c_rows c <= SS)).
Proof.
  intros SS cc [kd st so rows cols base] HSS Hcc HK HO. cbn in HK, HO. subst kd so. set (c := Cont Dense st columnMajor rows cols base).
  assert (EA : forall i j, g_addr SS (MArg (whole c) false) i j = base + (j * nextMultiple rows SS + i)).
  { intros i j. unfold g_addr, v_addr, c_addr, c_index, c_spacing. cbn [g_view g_trans whole v_cont v_i v_j c_kind c_so c_static c_rows c_cols c_base c Nat.add]. nia. }
  set (sp := nextMultiple rows SS) in *. destruct (nextMultiple_spec rows SS HSS) as (N1 & N2 & N3). fold sp in N1, N2, N3.
  assert (AL : forall x, c_alloc SS c (base + x) = true <-> x < sp * cols).
  { intros x. unfold c_alloc, c_capacity, c_spacing, c. cbn [c_base c_kind c_so c_static c_rows c_cols]. fold sp. rewrite andb_true_iff, Nat.leb_le, Nat.ltb_lt. lia. }
  unfold getf2_memory. change (g_rows (MArg (whole c) false)) with rows. change (g_cols (MArg (whole c) false)) with cols. cbn [c_rows c_cols c].
  assert (Q : forall r, 0 < r -> r < SS + 1 -> nextMultiple r (2 * SS) = 2 * SS).
  { intros r H1 H2. destruct (nextMultiple_spec r (2 * SS) ltac:(lia)) as (K1 & K2 & K3). apply mod0_ex in K2; [|lia]. destruct K2 as [q Eq]. assert (q = 1) by nia. subst q. lia. }
  split.
  - intros [_ H] (E2 & B & L). subst cc.
    assert (X : nextMultiple (rows - (cols - 2) - 1) (2 * SS) = 2 * SS) by (apply Q; auto; lia).
    specialize (H (cols - 2) (2 * SS - 1) ltac:(lia) ltac:(lia)). rewrite X in H. specialize (H ltac:(lia)). rewrite EA in H. apply AL in H.
    assert (sp = SS). { apply mod0_ex in N2; auto. destruct N2 as [q Eq]. assert (q = 1) by nia. subst q. lia. }
    subst sp. rewrite H0 in H. assert (cols = cols - 2 + 2) by lia. nia.
  - intros H. split.
    + intros i j Hi Hj _. rewrite EA. apply AL. nia.
    + intros k i Hk Hk' Hi. rewrite EA. apply AL. assert ((k + 2) * sp <= sp * cols) by nia.
      destruct (nextMultiple_spec (rows - k - 1) (cc * SS) ltac:(nia)) as (K1 & K2 & K3).
      apply mod0_ex in N2; auto. destruct N2 as [q Eq]. assert (0 < q) by nia.
      destruct Hcc as [-> | ->]; [assert (k + 1 + i < 2 * sp) by nia; nia|].
      destruct (Nat.eq_dec q 1) as [->|Nq].
      * assert (sp = SS) by lia. assert (X : nextMultiple (rows - k - 1) (2 * SS) = 2 * SS) by (apply Q; auto; lia). rewrite X in Hi.
        assert (rows < cols) by lia. assert ((k + 3) * sp <= sp * cols) by nia. nia.
      * assert (2 * SS <= sp) by nia. assert (k + 1 + i < 2 * sp) by lia. nia.
Qed.
(** Hence on NEON (two doubles per register, tiles of four rows) only the square matrices of order two cannot be factored in their own buffer: reading one element behind
    its end, the call is undefined for every content for which it does not throw. *)
Theorem C78_getf2_neon : forall T (O : Ops T) c s, c_kind c = Dense -> c_so c = columnMajor -> c_base c mod 2 = 0 ->
  (~ (c_rows c = 2 /\ c_cols c = 2) -> getf2_cm 2 2 T O (c_alloc 2 c) (MArg (whole c) false) s <> UB) /\
  (c_rows c = 2 -> c_cols c = 2 -> getf2_cm 2 2 T O (c_alloc 2 c) (MArg (whole c) false) s = UB \/ getf2_cm 2 2 T O (c_alloc 2 c) (MArg (whole c) false) s = Throw InvalidArgument).
Proof.
  intros T O c s HK HO HB.
  assert (AOK : arg_ok 2 (MArg (whole c) false)).
  { split; [exact HB|]. destruct c as [kd st so rows cols base]; cbn in *; subst kd so. split; [lia|]. split; [lia|]. intros _. reflexivity. }
  destruct (C78_getf2 2 2 T O (c_alloc 2 c) (MArg (whole c) false) s ltac:(lia) ltac:(lia) AOK HK HO) as (_ & P1 & P2).
  pose proof (C78_getf2_in_container 2 2 c ltac:(lia) ltac:(auto) HK HO) as Q. split.
  - intros H. destruct P1 as [(s' & E)|E]; [apply Q; lia| |]; rewrite E; discriminate.
  - intros H1 H2. change (g_rows (MArg (whole c) false)) with (c_rows c) in P2. change (g_cols (MArg (whole c) false)) with (c_cols c) in P2. apply P2; [lia|lia|].
    rewrite Q. intros X. apply X. lia.
Qed.
(** The blocked factorisation is safe on NEON for all other containers. *)
Theorem C36_getrf_neon_safe_in_container : forall al c, c_kind c = Dense -> c_so c = columnMajor -> c_base c mod 2 = 0 ->
  (forall x, c_alloc 2 c x = true -> al x = true) -> ~ (c_rows c = 2 /\ c_cols c = 2) -> getrf_pre 2 2 al (MArg (whole c) false).
Proof.
  intros al c HK HO HB HL H. pose proof (C36_getrf_safe_in_container 2 al c ltac:(lia) HK HO HB HL) as [[P1 P2 P3 P4 P5] P6]. split; auto. constructor; auto.
  pose proof (C78_getf2_in_container 2 2 c ltac:(lia) ltac:(auto) HK HO) as Q. intros k i Hk Hk' Hi. apply HL. apply (proj2 (proj2 Q ltac:(lia))); auto.
Qed.
