(** Properties_MakePD.v -- C44: randomize and makePositiveDefinite. *)
From Coq Require Import Arith Lia List Bool PeanoNat ZArith Reals Lra.
From Verif Require Import Base Base_Proofs Spec Algebra_Proofs Instances Layout_Model Layout_Proofs Gemm_Model Arg_Proofs Scan_Proofs
  Container_Model Container_Proofs Ref_Model Potrf_Model Cholesky_Proofs MakePD_Model Properties_Container Properties_Gemm Properties_Ref Properties_Potrf.
Import ListNotations.
Local Open Scope nat_scope.

(* ------------------------------------------------------------------ randomize *)
(** randomize(m) takes rows*columns values and stores them row by row, whatever the storage order; nothing else changes. *)
Theorem C44_randomize : forall SS T al (draw : nat -> T) v k m, 0 < SS ->
  window_ok SS v -> allocated al (v_m v) (v_n v) (v_addr SS v) ->
  exists m', randomize SS T al draw v (k, m) = Ok (k + v_m v * v_n v, m') /\
    updated (block (v_m v) (v_n v)) (v_addr SS v) (fun i j => draw (k + i * v_n v + j)) m m'.
Proof.
  intros SS T al draw v k m HSS (W0 & W1 & W2) HA.
  assert (D : distinct (v_m v) (v_n v) (v_addr SS v)).
  { intros i j i' j' Hi Hj Hi' Hj' E. unfold v_addr in E. apply (c_addr_inj SS HSS) in E; lia. }
  unfold randomize.
  destruct (for_inv (nat * mem T) (fun i s => fst s = k + i * v_n v /\
      updated (before (v_n v) i 0) (v_addr SS v) (fun i j => draw (k + i * v_n v + j)) m (snd s)) 0 (v_m v)
     (fun i s => for_ 0 (v_n v) (fun j (s : nat * mem T) =>
        m <- v_set SS al v (snd s) i j (draw (fst s)) ;; Ok (fst s + 1, m)) s) (k, m)) as ((k' & m') & E & K & U); try lia.
  - cbn [fst snd]. split; [lia|]. apply updated_none. unfold before. intros; lia.
  - intros i s Hi (K & U).
    destruct (for_inv (nat * mem T) (fun j s => fst s = k + i * v_n v + j /\
      updated (before (v_n v) i j) (v_addr SS v) (fun i j => draw (k + i * v_n v + j)) m (snd s)) 0 (v_n v)
     (fun j (s : nat * mem T) => m <- v_set SS al v (snd s) i j (draw (fst s)) ;; Ok (fst s + 1, m)) s) as (s' & E & K' & U'); try lia.
    + split; [lia|]. auto.
    + intros j [k1 m1] Hj (K1 & V1 & V2). cbn [fst snd] in *. unfold v_set. rewrite wr_ok by (apply HA; lia). cbn [bind].
      eexists. split; [reflexivity|]. cbn [fst snd]. split; [lia|]. split.
      * intros i' j' Hb. destruct (Nat.eq_dec i' i) as [->|Ni]; [destruct (Nat.eq_dec j' j) as [->|Nj]|].
        -- rewrite mupd_eq. f_equal. lia.
        -- rewrite mupd_neq; [apply V1; unfold before in *; lia|]. intros Q. apply D in Q; unfold before in *; lia.
        -- rewrite mupd_neq; [apply V1; unfold before in *; lia|]. intros Q. apply D in Q; unfold before in *; lia.
      * intros a Ha. rewrite mupd_neq; [apply V2; intros i' j' Hb; apply Ha; unfold before in *; lia|].
        intros ->. apply (Ha i j); [unfold before; lia|reflexivity].
    + exists s'. split; auto. split; [lia|]. eapply updated_iff; [|exact U']. cbn beta. intros i' j'. unfold before. lia.
  - exists m'. cbn [fst snd] in *. subst k'. split; [exact E|].
    eapply updated_iff; [|exact U]. cbn beta. intros i' j'. unfold before, block. lia.
Qed.

(* ------------------------------------------------------------------ makePositiveDefinite *)
(** The target: a dense container, or any window; its buffer is allocated. *)
Definition target_ok (SS : nat) (al : alloc) (t : target) : Prop :=
  match t with
  | OnContainer c => c_kind c = Dense /\ c_base c mod SS = 0 /\ buffer_live SS al c
  | OnView v => arg_ok SS (MArg v false) /\ buffer_live SS al (v_cont v)
  end.
(** The memory location belongs to the target: to the buffer of the container (including padding), or to the window. *)
Definition in_target (SS : nat) (t : target) (a : nat) : Prop :=
  match t with
  | OnContainer c => c_alloc SS c a = true
  | OnView v => exists i j, block (v_m v) (v_n v) i j /\ a = v_addr SS v i j
  end.
(** The buffer allocated for an N-by-N temporary is aligned and not in use. *)
Definition fresh_buffer (SS : nat) (al : alloc) (N tb : nat) : Prop :=
  tb mod SS = 0 /\ forall a, c_alloc SS (Cont Dense false columnMajor N N tb) a = true -> al a = false.

(** The product of row i of the random matrix with row j, as computed, and the stored element. *)
Definition pd_dot {T} (O : Ops T) (N : nat) (r : nat -> nat -> T) (i j : nat) : T :=
  oadd O (omul O (o1 O) (add_chain O N (r i) (r j) (o0 O))) (omul O (o0 O) (o0 O)).
Definition pd_elem {T} (O : Ops T) (ofN : nat -> T) (N : nat) (r : nat -> nat -> T) (i j : nat) : T :=
  if i =? j then oadd O (pd_dot O N r i j) (ofN N) else pd_dot O N r i j.

Theorem C44_makePositiveDefinite_ops : forall SS T (O : Ops T) al tb draw ofN t k m, 0 < SS -> target_ok SS al t ->
  let N := v_n (t_view t) in v_m (t_view t) = N -> fresh_buffer SS al N tb ->
  exists m', makePositiveDefinite SS T O al tb draw ofN t (k, m) = Ok (k + N * N, m') /\
    (forall i j, i < N -> j < N -> m' (v_addr SS (t_view t) i j) = pd_elem O ofN N (fun i l => draw (k + i * N + l)) i j) /\
    (forall a, al a = true -> ~ in_target SS t a -> m' a = m a).
Proof.
  intros SS T O al tb draw ofN t k m HSS OK N Sq (FA & FR).
  set (tmp := Cont Dense false columnMajor N N tb) in *. set (v := t_view t) in *.
  assert (Hv : arg_ok SS (MArg v false) /\ buffer_live SS al (v_cont v)).
  { unfold v. destruct t as [c|w]; cbn [t_view]; [|exact OK]. destruct OK as (_ & B & L). split; [|exact L].
    unfold arg_ok; cbn. repeat split; auto. intros _. unfold major_of. destruct (c_so c); apply Nat.mod_0_l; lia. }
  destruct Hv as (Av & Lv).
  set (al' := fun a => al a || c_alloc SS tmp a).
  assert (Lt : buffer_live SS al' tmp) by (intros a Ha; unfold al'; rewrite Ha; apply orb_true_r).
  assert (Lv' : buffer_live SS al' (v_cont v)) by (intros a Ha; unfold al'; rewrite (Lv a Ha); reflexivity).
  assert (Allv : allocated al' N N (v_addr SS v)).
  { intros i j Hi Hj. pose proof (g_allocated SS HSS al' (MArg v false) Av) as G. apply G; cbn; auto; lia. }
  assert (INv : forall i j, i < N -> j < N -> al (v_addr SS v i j) = true).
  { intros i j Hi Hj. pose proof (g_allocated SS HSS al (MArg v false) Av) as G. apply G; cbn; auto; lia. }
  assert (INt : forall i j, i < N -> j < N -> c_alloc SS tmp (c_addr SS tmp i j) = true).
  { intros. apply c_alloc_index; auto. }
  assert (Dv : distinct N N (v_addr SS v)).
  { intros i j i' j' Hi Hj Hi' Hj'. apply (g_distinct SS HSS (MArg v false) Av); cbn; lia. }
  assert (SEP : forall i j i' j', i < N -> j < N -> i' < N -> j' < N -> v_addr SS v i j <> c_addr SS tmp i' j').
  { intros i j i' j' Hi Hj Hi' Hj' Q. pose proof (FR _ (INt i' j' Hi' Hj')) as X. rewrite <- Q, INv in X by auto. discriminate. }
  unfold makePositiveDefinite. fold v. change (v_n v) with N. rewrite Sq, Nat.eqb_refl. cbn [negb]. fold tmp. cbv zeta. fold al'.
  (* construct *)
  destruct (C41_default_construction SS T O al' tmp m HSS Lt) as (m1 & E1 & _ & F1). cbn [fst snd].
  rewrite E1. cbn [bind].
  (* randomize *)
  destruct (C44_randomize SS T al' draw (whole tmp) k m1 HSS) as (m2 & E2 & V2 & F2).
  { split; [exact FA|]. cbn. lia. }
  { intros i j Hi Hj. apply Lt. apply INt; auto. }
  cbn [whole v_m v_n c_rows c_cols tmp] in E2, V2, F2. fold tmp in E2, V2, F2.
  change (View tmp 0 0 N N true true) with (whole tmp) in *. rewrite E2. cbn [bind fst snd].
  assert (F2' : forall a, al a = true -> m2 a = m a).
  { intros a Ha. rewrite F2.
    - rewrite F1. destruct (c_alloc SS tmp a) eqn:Q; auto. apply FR in Q. congruence.
    - intros i j (Hi & Hj) Q. pose proof (FR _ (INt i j Hi Hj)) as X. change (a = c_addr SS tmp i j) in Q. congruence. }
  (* reset *)
  assert (R : exists m3, t_reset SS T O al' t m2 = Ok m3 /\ (forall i j, i < N -> j < N -> m3 (v_addr SS v i j) = o0 O) /\
     (forall a, ~ in_target SS t a -> m3 a = m2 a)).
  { unfold v in *. destruct t as [c|w]; cbn [t_view t_reset in_target target_ok] in *.
    - destruct OK as (Hk & _ & _). rewrite Hk. destruct (C41_dense_reset SS T O al' c m2 HSS Hk Lv') as (m3 & E3 & V3 & F3).
      exists m3. split; auto. split.
      + intros i0 j0 Hi Hj. apply V3; cbn in Sq; unfold N in *; cbn in *; lia.
      + intros a Ha. rewrite F3. destruct (c_alloc SS c a); auto. tauto.
    - unfold v_reset. destruct (scan2_ok T al' (v_m w) (v_n w) (v_addr SS w) (fun i j m => v_set SS al' w m i j (o0 O)) (fun _ _ => o0 O) m2) as (m3 & E3 & V3 & F3).
      + rewrite Sq. exact Dv.
      + intros i j m0 Hi Hj _. unfold v_set. apply wr_ok. apply Allv; unfold N; lia.
      + exists m3. split; auto. split.
        * intros i j Hi Hj. apply V3. split; unfold N in *; lia.
        * intros a Ha. apply F3. intros i j Hb Q. apply Ha. eauto. }
  destruct R as (m3 & E3 & V3 & F3). rewrite E3. cbn [bind].
  assert (T3 : forall i j, i < N -> j < N -> m3 (c_addr SS tmp i j) = draw (k + i * N + j)).
  { intros i j Hi Hj. rewrite F3.
    - change (c_addr SS tmp i j) with (v_addr SS (whole tmp) i j). apply V2. split; auto.
    - intros Q. assert (X : al (c_addr SS tmp i j) = true).
      { destruct t as [c|w]; cbn [in_target] in Q; [apply Lv; auto|]. destruct Q as (i' & j' & (Hi' & Hj') & ->). apply INv; unfold v in *; cbn in *; lia. }
      rewrite (FR _ (INt i j Hi Hj)) in X. discriminate. }
  (* gemm *)
  destruct (C38_gemm_ops SS T O al' (o1 O) (MArg (whole tmp) false) (MArg (whole tmp) true) (o0 O) (MArg v false) (MArg v false) m3 HSS) as (m4 & E4 & V4 & F4).
  { assert (At : arg_ok SS (MArg (whole tmp) false)).
    { unfold arg_ok, major_of; cbn. repeat split; auto; try lia. intros _. apply Nat.mod_0_l; lia. }
    constructor; cbn [g_rows g_cols g_view g_trans whole v_m v_n c_rows c_cols tmp]; auto; try exact At.
    - intros i j Hi Hj. apply Lt. exact (INt i j Hi Hj).
    - intros i j Hi Hj. apply Lt. exact (INt j i Hj Hi).
    - intros i j i' j' Hi Hj Hi' Hj'. apply SEP; auto.
    - intros i j i' j' (Hi & Hj) (Hi' & Hj'). apply Dv; auto. }
  rewrite E4. cbn [bind].
  cbn [g_rows g_cols g_view g_trans whole v_m v_n c_rows c_cols tmp] in V4, F4.
  assert (V4' : forall i j, i < N -> j < N -> m4 (v_addr SS v i j) = pd_dot O N (fun i l => draw (k + i * N + l)) i j).
  { intros i j Hi Hj. change (v_addr SS v i j) with (g_addr SS (MArg v false) i j). rewrite (V4 i j) by (split; auto). unfold pd_dot. f_equal; [f_equal|f_equal].
    - apply add_chain_ext; intros l Hl.
      + change (m3 (c_addr SS tmp i l) = draw (k + i * N + l)). apply T3; auto.
      + change (m3 (c_addr SS tmp j l) = draw (k + j * N + l)). apply T3; auto.
    - apply V3; auto. }
  (* diagonal *)
  match goal with |- context [@bind _ _ (@for_ ?St 0 N ?g ?s0) _] =>
    destruct (for_inv St (fun n m5 => (forall i j, i < N -> j < N ->
        m5 (v_addr SS v i j) = if i <? n then pd_elem O ofN N (fun i l => draw (k + i * N + l)) i j else m4 (v_addr SS v i j)) /\
        (forall a, (forall i j, i < N -> j < N -> a <> v_addr SS v i j) -> m5 a = m4 a)) 0 N g s0) as (m5 & E5 & V5 & F5) end; try lia.
  - split; auto.
  - intros n m5 Hn (V5 & F5). unfold v_get, v_set. rewrite rd_ok by (apply Allv; lia). cbn [bind]. rewrite wr_ok by (apply Allv; lia).
    eexists. split; [reflexivity|]. split.
    + intros i j Hi Hj. destruct (Nat.eq_dec i n) as [->|Ni].
      * destruct (Nat.ltb_spec n (S n)); [|lia]. unfold pd_elem. destruct (Nat.eqb_spec n j) as [<-|Nj].
        -- rewrite mupd_eq, V5 by auto. destruct (Nat.ltb_spec n n); [lia|]. rewrite V4' by auto. reflexivity.
        -- rewrite mupd_neq by (intros Q; apply Dv in Q; lia). rewrite V5 by auto. destruct (Nat.ltb_spec n n); [lia|]. apply V4'; auto.
      * rewrite mupd_neq by (intros Q; apply Dv in Q; lia). rewrite V5 by auto.
        destruct (Nat.ltb_spec i n), (Nat.ltb_spec i (S n)); auto; lia.
    + intros a Ha. rewrite mupd_neq; auto. apply Ha; lia.
  - rewrite E5. cbn [bind]. exists m5. split; [reflexivity|]. split.
    + intros i j Hi Hj. rewrite V5 by auto. destruct (Nat.ltb_spec i N); [auto|lia].
    + intros a Ha Hn. assert (Hout : forall i j, i < N -> j < N -> a <> v_addr SS v i j).
      { intros i j Hi Hj ->. apply Hn. unfold v. destruct t as [c|w]; cbn [in_target t_view].
        - apply (c_alloc_index SS HSS c); unfold v, N in *; cbn in *; lia.
        - exists i, j. split; auto. split; unfold v, N in *; cbn in *; lia. }
      rewrite F5 by auto. rewrite F4 by (intros i j (Hi & Hj); apply Hout; auto). rewrite F3 by auto. apply F2'; auto.
Qed.

(** A matrix that is not square is rejected, and neither the matrix nor the random engine is touched. *)
Theorem C44_makePositiveDefinite_throws : forall SS T (O : Ops T) al tb draw ofN t s,
  v_m (t_view t) <> v_n (t_view t) -> makePositiveDefinite SS T O al tb draw ofN t s = Throw InvalidArgument.
Proof.
  intros SS T O al tb draw ofN t s H. unfold makePositiveDefinite. destruct (Nat.eqb_spec (v_m (t_view t)) (v_n (t_view t))); auto. contradiction.
Qed.

(** The result is exactly symmetric, bit for bit, in every arithmetic with commutative multiplication. *)
Theorem C44_symmetric : forall SS T (O : Ops T) al tb draw ofN t k m k' m', 0 < SS -> target_ok SS al t ->
  v_m (t_view t) = v_n (t_view t) -> fresh_buffer SS al (v_n (t_view t)) tb ->
  (forall x y, omul O x y = omul O y x) ->
  makePositiveDefinite SS T O al tb draw ofN t (k, m) = Ok (k', m') ->
  forall i j, i < v_n (t_view t) -> j < v_n (t_view t) -> m' (v_addr SS (t_view t) i j) = m' (v_addr SS (t_view t) j i).
Proof.
  intros SS T O al tb draw ofN t k m k' m' HSS OK Sq FR C E i j Hi Hj.
  destruct (C44_makePositiveDefinite_ops SS T O al tb draw ofN t k m HSS OK Sq FR) as (m1 & E1 & V & _).
  rewrite E in E1. injection E1 as _ <-. rewrite !V by auto.
  set (r := fun i l => draw (k + i * v_n (t_view t) + l)). clearbody r. unfold pd_elem, pd_dot.
  assert (CH : forall K, add_chain O K (r i) (r j) (o0 O) = add_chain O K (r j) (r i) (o0 O)).
  { induction K as [|K IH]; cbn [add_chain]; auto. rewrite IH, (C (r i K)). reflexivity. }
  rewrite CH. destruct (Nat.eqb_spec i j), (Nat.eqb_spec j i); subst; auto; contradiction.
Qed.

(** Over the reals the result is symmetric positive definite, whatever the random values were. *)
Lemma gram_pos : forall N (r : nat -> nat -> R) (a : nat -> nat -> R) d, (0 < d)%R ->
  (forall i j, i < N -> j < N -> a i j = (sum rops N (fun l => r i l * r j l) + if i =? j then d else 0)%R) -> pos_def N a.
Proof.
  intros N r a d Hd Ha. split.
  - intros i j Hi Hj. rewrite !Ha by auto. f_equal; [apply S_ext; intros; ring|]. destruct (Nat.eqb_spec i j), (Nat.eqb_spec j i); subst; auto; contradiction.
  - intros v (i0 & Hi0 & Hv).
    assert (E : (sum rops N (fun i => sum rops N (fun j => v i * a i j * v j)) =
      sum rops N (fun l => Rsqr (sum rops N (fun i => v i * r i l))) + d * sum rops N (fun i => Rsqr (v i)))%R).
    { transitivity (sum rops N (fun i => (sum rops N (fun j => sum rops N (fun l => (v i * r i l) * (v j * r j l))) + d * Rsqr (v i))%R)).
      - apply S_ext. intros i Hi. transitivity (sum rops N (fun j => (sum rops N (fun l => (v i * r i l) * (v j * r j l)) + (if j =? i then d * Rsqr (v j) else 0))%R)).
        + apply S_ext. intros j Hj. rewrite Ha by auto.
          rewrite (S_ext N (fun l => (v i * r i l * (v j * r j l))%R) (fun l => ((v i * v j) * (r i l * r j l))%R)) by (intros; ring).
          rewrite S_scale. destruct (Nat.eqb_spec i j), (Nat.eqb_spec j i); subst; try contradiction; unfold Rsqr; ring.
        + rewrite S_plus. f_equal. rewrite (S_delta N i (fun j => (d * Rsqr (v j))%R)); auto.
      - rewrite S_plus, S_scale. f_equal.
        transitivity (sum rops N (fun i => sum rops N (fun l => sum rops N (fun j => (v i * r i l) * (v j * r j l))%R))).
        + apply S_ext. intros i Hi. apply S_swap.
        + rewrite S_swap. apply S_ext. intros l Hl. unfold Rsqr. rewrite <- S_scale. apply S_ext. intros i Hi. rewrite S_scale. apply Rmult_comm. }
    rewrite E.
    assert (NN : forall (n : nat) (f : nat -> R), (forall k : nat, k < n -> (0 <= f k)%R) -> (0 <= sum rops n f)%R).
    { induction n as [|n IH]; intros f Hf; [cbn; lra|]. cbn [sum]. cbn [oadd rops]. specialize (IH f). specialize (Hf n) as Hn.
      assert (0 <= sum rops n f)%R by (apply IH; intros; apply Hf; lia). assert (0 <= f n)%R by (apply Hn; lia). lra. }
    assert (P : (0 < sum rops N (fun i => Rsqr (v i)))%R).
    { assert (G : forall n, i0 < n -> (0 < sum rops n (fun i => Rsqr (v i)))%R).
      { induction n as [|n IH]; intros H; [lia|]. cbn [sum]. cbn [oadd rops]. destruct (Nat.eq_dec i0 n) as [->|].
        - assert (0 < Rsqr (v n))%R by (apply Rlt_0_sqr; auto). assert (0 <= sum rops n (fun i => Rsqr (v i)))%R by (apply NN; intros; apply Rle_0_sqr). lra.
        - assert (0 < sum rops n (fun i => Rsqr (v i)))%R by (apply IH; lia). pose proof (Rle_0_sqr (v n)). lra. }
      apply G; auto. }
    assert (0 <= sum rops N (fun l => Rsqr (sum rops N (fun i => v i * r i l))))%R by (apply NN; intros; apply Rle_0_sqr).
    assert (0 < d * sum rops N (fun i => Rsqr (v i)))%R by (apply Rmult_lt_0_compat; auto). lra.
Qed.

Lemma pd_elem_real : forall N r i j, pd_elem rops INR N r i j = (sum rops N (fun l => r i l * r j l) + if i =? j then INR N else 0)%R.
Proof.
  intros N r i j. unfold pd_elem, pd_dot. rewrite (add_chain_sum rops rops_ring). cbn [oadd omul o0 o1 rops]. destruct (i =? j); ring.
Qed.

Theorem C44_positive_definite : forall SS al tb draw t k m, 0 < SS -> target_ok SS al t ->
  v_m (t_view t) = v_n (t_view t) -> fresh_buffer SS al (v_n (t_view t)) tb ->
  exists m', makePositiveDefinite SS R rops al tb draw INR t (k, m) = Ok (k + v_n (t_view t) * v_n (t_view t), m') /\
    pos_def (v_n (t_view t)) (fun i j => m' (v_addr SS (t_view t) i j)).
Proof.
  intros SS al tb draw t k m HSS OK Sq FR.
  destruct (C44_makePositiveDefinite_ops SS R rops al tb draw INR t k m HSS OK Sq FR) as (m1 & E1 & V & _).
  exists m1. split; auto. set (N := v_n (t_view t)) in *. destruct (Nat.eq_dec N 0) as [Z|NZ].
  - rewrite Z. split; [intros; lia|]. intros v (i & Hi & _). lia.
  - apply (gram_pos N (fun i l => draw (k + i * N + l)) _ (INR N)); [apply lt_0_INR; lia|]. intros i j Hi Hj. rewrite V by auto. apply pd_elem_real.
Qed.

(** With draws in [0, 1), as uniform_real_distribution yields: off-diagonal elements lie in [0, N), diagonal ones in [N, 2N). *)
Theorem C44_range : forall SS al tb draw t k m k' m', 0 < SS -> target_ok SS al t ->
  v_m (t_view t) = v_n (t_view t) -> fresh_buffer SS al (v_n (t_view t)) tb -> (forall n, 0 <= draw n < 1)%R ->
  makePositiveDefinite SS R rops al tb draw INR t (k, m) = Ok (k', m') ->
  let N := v_n (t_view t) in forall i j, i < N -> j < N ->
    let d := (if i =? j then INR N else 0)%R in (d <= m' (v_addr SS (t_view t) i j) < d + INR N)%R.
Proof.
  intros SS al tb draw t k m k' m' HSS OK Sq FR HD E N i j Hi Hj d.
  destruct (C44_makePositiveDefinite_ops SS R rops al tb draw INR t k m HSS OK Sq FR) as (m1 & E1 & V & _).
  rewrite E in E1. injection E1 as _ <-. rewrite V by auto. fold N.
  set (r := fun i l => draw (k + i * N + l)). rewrite pd_elem_real. fold d.
  assert (G : forall n, (0 <= sum rops n (fun l => r i l * r j l)%R <= INR n)%R /\ (0 < n -> (sum rops n (fun l => r i l * r j l)%R < INR n)%R)).
  { induction n as [|n IH]; [cbn; split; [lra|lia]|]. rewrite S_INR. cbn [sum]. cbn [oadd rops].
    pose proof (HD (k + i * N + n)). pose proof (HD (k + j * N + n)). fold (r i n) in H. fold (r j n) in H0.
    assert (0 <= r i n * r j n < 1)%R by nra. destruct IH as ((IH1 & IH2) & _). split; [lra|intros _; lra]. }
  specialize (G N). destruct G as (G1 & G2). specialize (G2 ltac:(lia)). lra.
Qed.

(** makePositiveDefinite followed by potrf: a positive-definite matrix produced by makePositiveDefinite in a dense
    column-major matrix is factorised successfully. *)
Theorem C44_then_potrf : forall SS cc al tb draw t L k m, 0 < SS -> 0 < cc -> target_ok SS al t ->
  v_m (t_view t) = v_n (t_view t) -> fresh_buffer SS al (v_n (t_view t)) tb -> potrf_pre SS cc al (t_view t) L ->
  exists m' m'', makePositiveDefinite SS R rops al tb draw INR t (k, m) = Ok (k + v_n (t_view t) * v_n (t_view t), m') /\
    potrf_dense SS cc (cc * SS) R rops al (t_view t) L m' = Ok m'' /\
    cholesky_factor (v_n (t_view t)) (v_n (t_view t)) (fun i j => m' (v_addr SS (t_view t) i j)) (fun i j => m'' (v_addr SS L i j)).
Proof.
  intros SS cc al tb draw t L k m HSS Hcc OK Sq FR PP.
  destruct (C44_positive_definite SS al tb draw t k m HSS OK Sq FR) as (m' & E & PD).
  destruct (C28_potrf_dense_real SS cc al (t_view t) L m' _ HSS Hcc PP PD) as (m'' & E2 & CF); [auto|].
  exists m', m''. rewrite Sq in CF. auto.
Qed.

(* ------------------------------------------------------------------ panel containers *)
(** Number of elements in the lower triangle of order i. *)
Definition tri (i : nat) : nat := i * (i + 1) / 2.
Lemma tri_S : forall i, tri (S i) = tri i + i + 1.
Proof.
  intros i. unfold tri. replace (S i * (S i + 1)) with (i * (i + 1) + (i + 1) * 2) by lia. rewrite Nat.div_add by lia. lia.
Qed.

(** makeSymmetric of an n-by-n matrix takes n(n+1)/2 values; element (i, j) with j <= i is value number tri(i) + j, element
    (j, i) is the same; nothing else changes. *)
Theorem C44_makeSymmetric : forall SS T al (draw : nat -> T) c k m, 0 < SS -> buffer_live SS al c -> c_rows c = c_cols c ->
  exists m', makeSymmetric SS T al draw c (k, m) = Ok (k + tri (c_rows c), m') /\
    updated (block (c_rows c) (c_rows c)) (c_addr SS c) (fun i j => draw (k + tri (max i j) + min i j)) m m'.
Proof.
  intros SS T al draw c k m HSS HL Sq. set (n := c_rows c).
  assert (HA : forall i j, i < n -> j < n -> al (c_addr SS c i j) = true).
  { intros i j Hi Hj. apply HL, c_alloc_index; auto. rewrite <- Sq. auto. }
  assert (D : distinct n n (c_addr SS c)).
  { intros i j i' j' Hi Hj Hi' Hj'. apply (c_addr_inj SS HSS); try rewrite <- Sq; auto. }
  set (e := fun i j => draw (k + tri (max i j) + min i j)).
  assert (ST : forall (P Q : nat -> nat -> Prop) i j m1, (forall i j, P i j -> i < n /\ j < n) -> i < n -> j < n -> 
     (forall i' j', Q i' j' <-> P i' j' \/ (i' = i /\ j' = j)) ->
     updated P (c_addr SS c) e m m1 -> updated Q (c_addr SS c) e m (mupd m1 (c_addr SS c i j) (e i j))).
  { intros P Q i j m1 HP Hi Hj HQ (U1 & U2). split.
    - intros i' j' Hq. apply HQ in Hq. destruct Hq as [Hp|(-> & ->)]; [|apply mupd_eq].
      destruct (Nat.eq_dec (c_addr SS c i' j') (c_addr SS c i j)) as [Q1|Q1].
      + destruct (HP _ _ Hp). apply D in Q1; auto. destruct Q1 as (-> & ->). apply mupd_eq.
      + rewrite mupd_neq; auto.
    - intros a Ha. rewrite mupd_neq; [apply U2|]; intros; apply Ha, HQ; auto. }
  unfold makeSymmetric, square_check. rewrite <- Sq, Nat.eqb_refl. fold n.
  match goal with |- exists m', @for_ ?St 0 n ?g ?s0 = _ /\ _ =>
    destruct (for_inv St (fun i s => fst s = k + tri i /\ updated (block i i) (c_addr SS c) e m (snd s)) 0 n g s0) as ((k' & m') & E & K & U) end; try lia.
  - cbn [fst snd]. split; [unfold tri; cbn; lia|]. apply updated_none. unfold block. lia.
  - intros i s Hi (K & U).
    match goal with |- exists s', (x <- @for_ ?St 0 i ?g ?s0 ;; _) = _ /\ _ =>
      destruct (for_inv St (fun j s => fst s = k + tri i + j /\
         updated (fun i' j' => block i i i' j' \/ (i' = i /\ j' < j) \/ (j' = i /\ i' < j)) (c_addr SS c) e m (snd s)) 0 i g s0) as ((k1 & m1) & E1 & K1 & U1) end; try lia.
    + split; [lia|]. eapply updated_iff; [|exact U]. cbn beta. unfold block; intros; lia.
    + intros j [k1 m1] Hj (K1 & U1). cbn [fst snd] in *. unfold rand_elem. cbn [fst snd]. unfold c_set, c_get.
      rewrite wr_ok by (apply HA; lia). cbn [bind fst snd]. rewrite rd_ok by (apply HA; lia). cbn [bind fst snd].
      rewrite wr_ok by (apply HA; lia). cbn [bind fst snd]. eexists. split; [reflexivity|]. cbn [fst snd]. split; [lia|].
      rewrite mupd_eq.
      assert (X1 : draw k1 = e i j) by (unfold e; f_equal; rewrite Nat.max_l, Nat.min_r by lia; lia).
      assert (X2 : draw k1 = e j i) by (unfold e; f_equal; rewrite Nat.max_r, Nat.min_l by lia; lia).
      rewrite X2 at 2. rewrite X1.
      refine (ST (fun i' j' => (block i i i' j' \/ (i' = i /\ j' < j) \/ (j' = i /\ i' < j)) \/ (i' = i /\ j' = j)) _ j i _ _ _ _ _ _); try lia.
      * unfold block. intros; lia.
      * unfold block. intros; lia.
      * refine (ST _ _ i j _ _ _ _ _ U1); try lia; unfold block; intros; lia.
    + rewrite E1. cbn [bind]. unfold rand_elem. cbn [fst snd] in *. unfold c_set. rewrite wr_ok by (apply HA; lia). cbn [bind].
      eexists. split; [reflexivity|]. cbn [fst snd]. rewrite tri_S. split; [lia|].
      assert (X1 : draw k1 = e i i) by (unfold e; f_equal; rewrite Nat.max_id, Nat.min_id; lia). rewrite X1.
      refine (ST _ _ i i _ _ _ _ _ U1); try lia; unfold block; intros; lia.
  - exists m'. cbn [fst snd] in *. subst k'. split; [exact E|exact U].
Qed.
(** Non-square matrices: dynamic ones throw, static ones do not compile. *)
Theorem C44_makeSymmetric_throws : forall SS T (O : Ops T) al tb draw ofN c s, c_rows c <> c_cols c -> c_static c = false ->
  makeSymmetric SS T al draw c s = Throw InvalidArgument /\ makePositiveDefinite_panel SS T O al tb draw ofN c s = Throw InvalidArgument.
Proof.
  intros SS T O al tb draw ofN c s H St. unfold makeSymmetric, makePositiveDefinite_panel, square_check. rewrite St.
  destruct (Nat.eqb_spec (c_rows c) (c_cols c)); auto. contradiction.
Qed.

(** makePositiveDefinite for column-major panel matrices. *)
Definition pdp_elem {T} (O : Ops T) (ofN : nat -> T) (N : nat) (r : nat -> nat -> T) (i j : nat) : T :=
  ofma O (o1 O) (if i =? j then ofN N else o0 O) (omul O (fma_chain O N (r i) (r j) (o0 O)) (o1 O)).

Theorem C44_panel_ops : forall SS T (O : Ops T) al tb draw ofN c k m, 0 < SS ->
  c_kind c = Panel -> c_so c = columnMajor -> c_base c mod SS = 0 -> buffer_live SS al c -> c_rows c = c_cols c ->
  let N := c_rows c in
  tb mod SS = 0 -> (forall a, c_alloc SS (Cont Panel (c_static c) columnMajor N N tb) a = true -> al a = false) ->
  exists m', makePositiveDefinite_panel SS T O al tb draw ofN c (k, m) = Ok (k + N * N, m') /\
    (forall i j, i < N -> j < N -> m' (c_addr SS c i j) = pdp_elem O ofN N (fun i l => draw (k + i * N + l)) i j) /\
    (forall a, al a = true -> (forall i j, i < N -> j < N -> a <> c_addr SS c i j) -> m' a = m a).
Proof.
  intros SS T O al tb draw ofN c k m HSS Hk So Hb HL Sq N FA FR.
  unfold makePositiveDefinite_panel, square_check. rewrite <- Sq, Nat.eqb_refl. fold N. cbn [fst snd]. cbv zeta. rewrite Hk, So.
  set (A := Cont Panel (c_static c) columnMajor N N tb) in *. set (al' := fun a => al a || c_alloc SS A a).
  assert (IN : forall i j, i < N -> j < N -> al (c_addr SS c i j) = true).
  { intros i j Hi Hj. apply HL, c_alloc_index; auto. rewrite <- Sq. auto. }
  assert (D : distinct N N (c_addr SS c)).
  { intros i j i' j' Hi Hj Hi' Hj'. apply (c_addr_inj SS HSS); try rewrite <- Sq; auto. }
  assert (LA : buffer_live SS al' A) by (intros a Ha; unfold al'; rewrite Ha; apply orb_true_r).
  assert (INA : forall i j, i < N -> j < N -> c_alloc SS A (c_addr SS A i j) = true) by (intros; apply c_alloc_index; auto).
  destruct (c_fill_ok SS HSS T al c (o0 O) m HL) as (m1 & E1 & V1 & F1). rewrite E1. cbn [bind].
  match goal with |- context [@bind _ _ (@for_ ?St 0 N ?g ?s0) _] =>
    destruct (for_inv St (fun n m2 => (forall i j, i < N -> j < N -> m2 (c_addr SS c i j) = if (i =? j) && (i <? n) then ofN N else o0 O) /\
        (forall a, (forall i j, i < N -> j < N -> a <> c_addr SS c i j) -> m2 a = m a)) 0 N g s0) as (m2 & E2 & V2 & F2) end; try lia.
  { split.
    - intros i j Hi Hj. rewrite andb_false_r. apply V1. split; auto. rewrite <- Sq. auto.
    - intros a Ha. apply F1. intros i j (Hi & Hj). apply Ha; [auto|]. unfold N. rewrite Sq. auto. }
  { intros n m2 Hn (V2 & F2). unfold c_set. rewrite wr_ok by (apply IN; lia). eexists. split; [reflexivity|]. split.
    - intros i j Hi Hj. destruct (Nat.eq_dec (c_addr SS c i j) (c_addr SS c n n)) as [Q|Q].
      + rewrite Q, mupd_eq. apply D in Q; try lia. destruct Q as (-> & ->). rewrite Nat.eqb_refl.
        destruct (Nat.ltb_spec n (S n)); [auto|lia].
      + rewrite mupd_neq by auto. rewrite V2 by auto. destruct (Nat.eqb_spec i j); cbn [andb]; auto.
        destruct (Nat.ltb_spec i n), (Nat.ltb_spec i (S n)); auto; try lia. assert (i = n) by lia. subst. contradiction.
    - intros a Ha. rewrite mupd_neq; auto. apply Ha; lia. }
  rewrite E2. cbn [bind].
  destruct (C41_default_construction SS T O al' A m2 HSS LA) as (m3 & E3 & _ & F3). rewrite E3. cbn [bind].
  destruct (C44_randomize SS T al' draw (whole A) k m3 HSS) as (m4 & E4 & V4 & F4).
  { split; [exact FA|]. cbn. lia. }
  { intros i j Hi Hj. apply LA. apply INA; auto. }
  rewrite E4. cbn [bind fst snd]. cbn [whole v_m v_n c_rows c_cols A] in V4, F4. fold A in V4, F4.
  change (View A 0 0 N N true true) with (whole A) in *.
  assert (F34 : forall a, al a = true -> m4 a = m2 a).
  { intros a Ha. rewrite F4.
    - rewrite F3. destruct (c_alloc SS A a) eqn:Q; auto. apply FR in Q. congruence.
    - intros i j (Hi & Hj) Q. pose proof (FR _ (INA i j Hi Hj)) as X. change (a = c_addr SS A i j) in Q. congruence. }
  unfold gemm4.
  assert (Ac : forall d b, d = A \/ d = c -> arg_ok SS (MArg (whole d) b)).
  { intros d b Hd. assert (BD : c_base d mod SS = 0) by (destruct Hd; subst d; auto). unfold arg_ok. cbn. repeat split; auto; try lia.
    intros _. unfold major_of. destruct (c_so d); apply Nat.mod_0_l; lia. }
  assert (Pd : forall d i j, (d = A \/ d = c) -> i < nextMultiple N SS -> j < N -> al' (c_addr SS d i j) = true).
  { intros d i j Hd Hi Hj. assert (X : c_alloc SS d (c_addr SS d i j) = true).
    { assert (c_rows d = N /\ c_cols d = N /\ c_so d = columnMajor) as (R1 & R2 & R3) by (destruct Hd; subst d; auto).
      unfold c_alloc, c_addr. apply andb_true_intro. split; [apply Nat.leb_le; lia|apply Nat.ltb_lt].
      apply Nat.add_lt_mono_l. apply c_index_bound_pad; auto; rewrite R3, ?R1, ?R2; auto. }
    destruct Hd as [ -> | -> ]; [apply LA; auto|]. unfold al'. rewrite (HL _ X). reflexivity. }
  assert (SEP : forall i j i' j', i < N -> j < N -> i' < N -> j' < N -> c_addr SS c i j <> c_addr SS A i' j').
  { intros i j i' j' Hi Hj Hi' Hj' Q. pose proof (FR _ (INA i' j' Hi' Hj')) as X. rewrite <- Q, IN in X by auto. discriminate. }
  destruct (C17_gemm_ops SS T O al' (o1 O) (MArg (whole A) false) (MArg (whole A) true) (o1 O) (MArg (whole c) false) (MArg (whole c) false) m4 HSS) as (m5 & E5 & V5 & F5).
  { assert (RN : nextMultiple N SS >= N) by (destruct (nextMultiple_spec N SS HSS); auto).
    constructor; cbn [g_rows g_cols g_view g_trans whole v_m v_n c_rows c_cols A v_af]; fold A; auto; try (apply Ac; auto; fail); fold N.
    - intros _. unfold at_panel. cbn. apply Nat.mod_0_l; lia.
    - intros i j Hi Hj. apply (Pd A); auto.
    - intros i j Hi Hj. apply (Pd A j i); auto; lia.
    - intros i j Hi Hj. apply (Pd c i j); auto; lia.
    - intros i j Hi Hj. apply (Pd c i j); auto; lia.
    - intros i j i' j' Hi Hj Hi' Hj'. apply SEP; auto.
    - intros i j i' j' (Hi & Hj) (Hi' & Hj'). apply D; auto. }
  rewrite E5. cbn [bind]. exists m5. split; [reflexivity|].
  cbn [g_rows g_cols g_view g_trans whole v_m v_n c_rows c_cols A] in V5, F5. fold A in V5, F5. split.
  - intros i j Hi Hj. change (c_addr SS c i j) with (g_addr SS (MArg (whole c) false) i j). rewrite (V5 i j) by (split; auto). unfold pdp_elem.
    f_equal; [|f_equal].
    + change (m4 (c_addr SS c i j) = if i =? j then ofN N else o0 O). rewrite F34 by auto. rewrite V2 by auto.
      destruct (Nat.ltb_spec i N); [|lia]. rewrite andb_true_r. reflexivity.
    + apply fma_chain_ext; intros l Hl.
      * change (m4 (v_addr SS (whole A) i l) = draw (k + i * N + l)). apply V4. split; auto.
      * change (m4 (v_addr SS (whole A) j l) = draw (k + j * N + l)). apply V4. split; auto.
  - intros a Ha Hout. rewrite F5 by (intros i j (Hi & Hj); apply Hout; auto). rewrite F34 by auto. apply F2. auto.
Qed.
Theorem C44_panel_positive_definite : forall SS al tb draw c k m, 0 < SS ->
  c_kind c = Panel -> c_so c = columnMajor -> c_base c mod SS = 0 -> buffer_live SS al c -> c_rows c = c_cols c ->
  tb mod SS = 0 -> (forall a, c_alloc SS (Cont Panel (c_static c) columnMajor (c_rows c) (c_rows c) tb) a = true -> al a = false) ->
  exists m', makePositiveDefinite_panel SS R rops al tb draw INR c (k, m) = Ok (k + c_rows c * c_rows c, m') /\
    pos_def (c_rows c) (fun i j => m' (c_addr SS c i j)).
Proof.
  intros SS al tb draw c k m HSS Hk So Hb HL Sq FA FR.
  destruct (C44_panel_ops SS R rops al tb draw INR c k m HSS Hk So Hb HL Sq FA FR) as (m' & E & V & _).
  exists m'. split; auto. set (N := c_rows c) in *. destruct (Nat.eq_dec N 0) as [Z|NZ].
  - rewrite Z. split; [intros; lia|]. intros v (i & Hi & _). lia.
  - apply (gram_pos N (fun i l => draw (k + i * N + l)) _ (INR N)); [apply lt_0_INR; lia|]. intros i j Hi Hj. rewrite V by auto. unfold pdp_elem.
    rewrite (rl_fma rops rops_ring), (fma_chain_sum rops rops_ring). cbn [oadd omul o0 o1 rops]. destruct (i =? j); ring.
Qed.

(* ------------------------------------------------------------------ a concrete case *)
Definition pdC : container := Cont Panel true columnMajor 5 6 0.   (* 5 x 6, two panels of 4: 48 elements *)
Definition pdV : view := submatrix false pdC 1 2 3 3.              (* an unaligned window crossing the panel boundary *)
Definition pd_al (a : nat) : bool := a <? 48.
Example C44_ex_hyp : target_ok 4 pd_al (OnView pdV) /\ v_m pdV = v_n pdV /\ fresh_buffer 4 pd_al 3 64.
Proof.
  split; [|split]; auto.
  - split.
    + unfold arg_ok; cbn. split; [reflexivity|]. split; [lia|]. split; [lia|]. discriminate.
    + intros a H. unfold c_alloc in H. apply andb_prop in H. apply (proj2 H).
  - split; [reflexivity|]. intros a. unfold c_alloc, pd_al. intros H. apply andb_prop in H. destruct H as (H1 & H2).
    apply Nat.leb_le in H1. apply Nat.ltb_ge. cbn [c_base] in H1. lia.
Qed.
(** draws 0,1,2,...: rows (0,1,2), (3,4,5), (6,7,8) *)
Example C44_ex : match makePositiveDefinite 4 Z zops pd_al 64 Z.of_nat Z.of_nat (OnView pdV) (0, fun _ => 7%Z) with
  | Ok (k, m) => k = 9 /\ map (fun ij => m (v_addr 4 pdV (fst ij) (snd ij))) [(0,0);(0,1);(0,2);(1,1);(1,2);(2,0);(2,2)] = [8; 14; 23; 53; 86; 23; 152]%Z
      /\ m (c_addr 4 pdC 0 0) = 7%Z
  | _ => False end.
Proof. vm_compute. auto. Qed.

Definition pdP : container := Cont Panel false columnMajor 3 3 0.
Example C44_panel_ex : match makePositiveDefinite_panel 4 Z zops pd_al 64 Z.of_nat Z.of_nat pdP (0, fun _ => 7%Z) with
  | Ok (k, m) => k = 9 /\ map (fun ij => m (c_addr 4 pdP (fst ij) (snd ij))) [(0,0);(0,1);(0,2);(1,1);(1,2);(2,0);(2,2)] = [8; 14; 23; 53; 86; 23; 152]%Z
  | _ => False end.
Proof. vm_compute. auto. Qed.
Example C44_symmetric_ex : match makeSymmetric 4 Z pd_al Z.of_nat pdP (0, fun _ => 7%Z) with
  | Ok (k, m) => k = 6 /\ map (fun ij => m (c_addr 4 pdP (fst ij) (snd ij))) [(0,0);(0,1);(0,2);(1,0);(1,1);(1,2);(2,0);(2,1);(2,2)] = [0; 1; 3; 1; 2; 4; 3; 4; 5]%Z
  | _ => False end.
Proof. vm_compute. auto. Qed.
