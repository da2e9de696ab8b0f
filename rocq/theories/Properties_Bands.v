(** Properties_Bands.v -- C25 for all sizes: what the left-hand trmm computes when the sizes are not multiples of the tile size. *)
From Coq Require Import Arith Lia List Bool PeanoNat ZArith.
From Verif Require Import Base Base_Proofs Spec Instances Layout_Model Layout_Proofs Simd_Model Reg_Model Tile_Model Tile_Proofs
  Gemm_Model Arg_Proofs Ger_Model Ger_Proofs Trmm_Model Trmm_Proofs Algebra_Proofs Properties_Trmm.
Import ListNotations.

(** The rows are processed in bands of three tiles from the top while more than two tiles of rows are left, except that exactly four full tiles are
    processed as two and two; then a band of two tiles if more than one is left; then one of one.
    [tile_rows]: number of tiles, the last one possibly partial; [big_rows]: how many of them are in bands of three. *)
Definition tile_rows (TS M : nat) : nat := (M + TS - 1) / TS.
Definition big_rows (TS M : nat) : nat :=
  let q := tile_rows TS M in if (M mod TS =? 0) && (q mod 3 =? 1) && (4 <=? q) then q - 4 else q - q mod 3.
(** First row and number of rows of the band of row i. *)
Definition band_start (TS M i : nat) : nat :=
  let t := i / TS in let e := big_rows TS M in TS * (if t <? e then 3 * (t / 3) else e + 2 * ((t - e) / 2)).
Definition band_height (TS M i : nat) : nat :=
  let e := big_rows TS M in TS * (if i / TS <? e then 3 else min 2 (tile_rows TS M - e)).

Section Bands.
Variables (t : nat) (Ht : 0 < t).
Lemma tile_rows_spec : forall M, 0 < M -> exists rem, 0 < rem <= t /\ M = t * (tile_rows t M - 1) + rem /\ 0 < tile_rows t M /\ (M mod t = 0 <-> rem = t).
Proof.
  intros M HM. unfold tile_rows. pose proof (Nat.div_mod (M - 1) t ltac:(lia)) as D. pose proof (Nat.mod_upper_bound (M - 1) t ltac:(lia)) as B.
  replace (M + t - 1) with ((M - 1) + 1 * t) by lia. rewrite Nat.div_add by lia. exists (S ((M - 1) mod t)). split; [lia|].
  replace ((M - 1) / t + 1 - 1) with ((M - 1) / t) by lia. split; [lia|]. split; [lia|].
  assert (EM : M = t * ((M - 1) / t) + S ((M - 1) mod t)) by lia. split; intros H.
  - apply mod0_ex in H; auto. destruct H as [z Hz]. set (d := (M - 1) / t) in *. set (r := (M - 1) mod t) in *.
    assert (Q : t * z = t * d + S r) by lia. assert (d < z) by (apply (Nat.mul_lt_mono_pos_l t); lia). nia.
  - rewrite EM, H. replace (t * ((M - 1) / t) + t) with (((M - 1) / t + 1) * t) by lia. apply Nat.mod_mul. lia.
Qed.
(** The three loops of the row-major traversal. *)
Lemma row_loops : forall M, 0 < M ->
  let r3 := steps (M + 1) (fun i => (i + 2 * t <? M) && negb (i + 4 * t =? M)) (3 * t) 0 in
  let r2 := steps (M + 1) (fun i => i + 1 * t <? M) (2 * t) (snd r3) in
  let r1 := steps (M + 1) (fun i => i + 0 * t <? M) (1 * t) (snd r2) in
  let q := tile_rows t M in let e := big_rows t M in
  (forall x, In x (fst r3) -> exists z, x = t * (3 * z) /\ 3 * z < e) /\ snd r3 = t * e /\ e mod 3 = 0 /\ e <= q /\
  (forall x, In x (fst r2) -> exists z, x = t * (e + 2 * z) /\ e + 2 * z + 1 < q) /\ 
  (forall x, In x (fst r1) -> x = t * e /\ q = e + 1).
Proof.
  intros M HM r3 r2 r1 q e. destruct (tile_rows_spec M HM) as (rem & HR & EM & Hq & HX). fold q in EM, Hq.
  assert (Ex : e = if (M mod t =? 0) && (q mod 3 =? 1) && (4 <=? q) then q - 4 else q - q mod 3) by reflexivity. clearbody q e.
  assert (LT : forall x y, t * x + y * t < M <-> x + y < q).
  { intros x y. split; intros H; [|nia]. destruct (le_lt_dec q (x + y)); auto. exfalso. nia. }
  assert (EQ : forall x y, t * x + y * t = M <-> (x + y = q /\ rem = t)).
  { intros x y. split; intros H.
    - assert (x + y < q + 1) by nia. assert (q <= x + y) by (destruct (le_lt_dec q (x + y)); auto; nia). assert (x + y = q) by lia. split; auto. nia.
    - destruct H as [H ->]. nia. }
  assert (S3 : (forall x, In x (fst r3) -> exists z, x = t * (3 * z) /\ 3 * z + 2 < q /\ ~ (3 * z + 4 = q /\ rem = t)) /\
     exists z, snd r3 = t * (3 * z) /\ ~ (3 * z + 2 < q /\ ~ (3 * z + 4 = q /\ rem = t)) /\ (z = 0 \/ 3 * z < q + 1 /\ 3 * (z - 1) + 2 < q /\ ~ (3 * (z - 1) + 4 = q /\ rem = t))).
  { assert (CD : forall z, (t * (3 * z) + 2 * t <? M) && negb (t * (3 * z) + 4 * t =? M) = true <-> 3 * z + 2 < q /\ ~ (3 * z + 4 = q /\ rem = t)).
    { intros z. rewrite andb_true_iff, negb_true_iff, Nat.ltb_lt, Nat.eqb_neq, LT, EQ. tauto. }
    destruct (steps_spec (fun i => exists z, i = t * (3 * z) /\ (z = 0 \/ 3 * z < q + 1 /\ 3 * (z - 1) + 2 < q /\ ~ (3 * (z - 1) + 4 = q /\ rem = t)))
      (fun i => (i + 2 * t <? M) && negb (i + 4 * t =? M)) (3 * t) (M + 1) 0 M) as (C & (z & Ez & Iz) & _ & A).
    - lia.
    - exists 0. split; auto; lia.
    - intros k (z & -> & _) C. apply CD in C. exists (S z). split; [lia|]. right. replace (S z - 1) with z by lia. split; [lia|]. exact C.
    - intros k _ C. apply andb_prop in C. destruct C as [C _]. apply Nat.ltb_lt in C. lia.
    - lia.
    - fold r3 in C, Ez, A. split.
      + intros x Hx. destruct (A x Hx) as ((z' & -> & _) & C' & _). exists z'. split; auto. apply CD. exact C'.
      + exists z. split; auto. split; auto. rewrite Ez in C. intros X. apply CD in X. congruence. }
  destruct S3 as (A3 & z & Ez & Nz & Iz).
  assert (E3 : 3 * z = e).
  { rewrite Ex. destruct (Nat.eqb_spec (M mod t) 0) as [M0|M0]; [apply HX in M0|rewrite HX in M0]; cbn [andb]; clear - Nz Iz Hq M0;
      pose proof (Nat.div_mod q 3 ltac:(lia)); pose proof (Nat.mod_upper_bound q 3 ltac:(lia)).
    - destruct (Nat.eqb_spec (q mod 3) 1); cbn [andb]; [destruct (Nat.leb_spec 4 q)|]; lia.
    - lia. }
  rewrite E3 in Ez.
  assert (B3 : e mod 3 = 0 /\ e <= q) by (split; [subst; rewrite <- E3, Nat.mul_comm; apply Nat.mod_mul; lia|rewrite Ex; destruct (_ && _ && _); lia]).
  assert (S2 : (forall x, In x (fst r2) -> exists z, x = t * (e + 2 * z) /\ e + 2 * z + 1 < q) /\
     exists w, snd r2 = t * (e + 2 * w) /\ ~ (e + 2 * w + 1 < q) /\ (w = 0 \/ e + 2 * (w - 1) + 1 < q)).
  { assert (CD : forall x, (t * x + 1 * t <? M) = true <-> x + 1 < q) by (intros x; rewrite Nat.ltb_lt, LT; tauto).
    destruct (steps_spec (fun i => exists w, i = t * (e + 2 * w) /\ (w = 0 \/ e + 2 * (w - 1) + 1 < q))
      (fun i => i + 1 * t <? M) (2 * t) (M + 1) (snd r3) M) as (C & (w & Ew & Iw) & _ & A).
    - lia.
    - exists 0. split; [rewrite Ez; f_equal; lia|auto].
    - intros k (w & -> & _) C. apply CD in C. exists (S w). split; [lia|]. right. replace (S w - 1) with w by lia. exact C.
    - intros k _ C. apply Nat.ltb_lt in C. lia.
    - lia.
    - fold r2 in C, Ew, A. split.
      + intros x Hx. destruct (A x Hx) as ((z' & -> & _) & C' & _). exists z'. split; auto. apply CD. exact C'.
      + exists w. split; auto. split; auto. rewrite Ew in C. intros X. apply CD in X. congruence. }
  destruct S2 as (A2 & w & Ew & Nw & Iw).
  split; [|split; [exact Ez|split; [apply B3|split; [apply B3|split; [exact A2|]]]]].
  - intros x Hx. destruct (A3 x Hx) as (z' & -> & Hz'). exists z'. split; auto.
    pose proof (steps_in_le _ _ _ _ _ Hx) as L. fold r3 in L. rewrite Ez in L. nia.
  - intros x Hx.
    destruct (steps_spec (fun i => exists v, i = t * (e + 2 * w + v)) (fun i => i + 0 * t <? M) (1 * t) (M + 1) (snd r2) M) as (C & _ & _ & A).
    + lia.
    + exists 0. rewrite Ew. f_equal. lia.
    + intros k (v & ->) _. exists (S v). lia.
    + intros k _ C. apply Nat.ltb_lt in C. lia.
    + lia.
    + destruct (A x Hx) as ((v & ->) & C' & _). apply Nat.ltb_lt, LT in C'.
      assert (v = 0 /\ q = e + 2 * w + 1) by lia. assert (w = 0); [|subst; split; [f_equal; lia|lia]].
      destruct Iw as [|Iw]; auto. exfalso. pose proof (Nat.div_mod q 3 ltac:(lia)); pose proof (Nat.mod_upper_bound q 3 ltac:(lia)).
      rewrite Ex in *. destruct (Nat.eqb_spec (M mod t) 0) as [M0|M0]; cbn [andb] in *; [destruct (Nat.eqb_spec (q mod 3) 1); cbn [andb] in *; [destruct (Nat.leb_spec 4 q)|]|]; lia.
Qed.
End Bands.

(** The block of (i, j) in the traversal: its first row, and whether it is computed by the full kernel. *)
Lemma backend_call : forall t RM M N x c, In c (tile_backend t RM t M N x) -> k_i c = x /\ k_rm c = RM.
Proof.
  intros t RM M N x c H. unfold tile_backend in H. cbv zeta in H. destruct (_ <=? M); rewrite in_app_iff, in_map_iff in H;
    (destruct H as [(j & <- & _)|H]; [split; reflexivity|]); match type of H with context [if ?b then _ else _] => destruct b end; destruct H as [<-|[]] || destruct H; split; reflexivity.
Qed.
Lemma band_of_row : forall t M N c i, 0 < t -> In c (tile t t rowMajor M N) -> k_i c <= i < k_i c + k_rm c * t ->
  k_i c = band_start t M i /\ k_rm c * t = band_height t M i.
Proof.
  intros t M N c i Ht Hc Hi. destruct (tile_ok_disj_cover t Ht t Ht rowMajor M N) as (TA & _).
  destruct (TA c Hc) as (T1 & T2 & (q1 & T3) & (q2 & T4) & T5 & T6 & T7 & T8 & T9 & T10 & T11). clear TA.
  assert (HM : 0 < M) by lia.
  pose proof (row_loops t Ht M HM) as RL. cbv zeta in RL.
  unfold band_start, band_height. set (q := tile_rows t M) in *. set (e := big_rows t M) in *. clearbody q e.
  destruct RL as (A3 & _ & E0 & Eq & A2 & A1).
  assert (DV : forall d r, r < t -> k_i c + t * d + r = i -> i / t = q1 + d).
  { intros d r Hr H. symmetry. apply (Nat.div_unique i t (q1 + d) r); auto. rewrite T3 in H. lia. }
  assert (QD : i / t = q1 + (i - k_i c) / t /\ (i - k_i c) / t < k_rm c).
  { split.
    - apply (DV _ ((i - k_i c) mod t)); [apply Nat.mod_upper_bound; lia|]. pose proof (Nat.div_mod (i - k_i c) t ltac:(lia)). lia.
    - apply Nat.div_lt_upper_bound; lia. }
  destruct QD as [QD QL]. set (d := (i - k_i c) / t) in *. clearbody d. rewrite QD. clear QD DV.
  unfold tile in Hc. cbv zeta in Hc. rewrite !in_app_iff, !in_concat in Hc.
  destruct Hc as [(l & Hl & H)|[(l & Hl & H)|(l & Hl & H)]]; apply in_map_iff in Hl; destruct Hl as (x & <- & Hx);
    destruct (backend_call _ _ _ _ _ _ H) as [K1 K2]; rewrite K2 in *.
  - destruct (A3 x Hx) as (z & X1 & X2). assert (q1 = 3 * z) by (rewrite K1, X1 in T3; apply Nat.mul_cancel_l in T3; lia). subst q1.
    apply mod0_ex in E0; [|lia]. destruct E0 as [y Ey].
    destruct (Nat.ltb_spec (3 * z + d) e) as [L|L]; [|lia].
    replace ((3 * z + d) / 3) with z by (apply (Nat.div_unique _ _ _ d); lia). split; lia.
  - destruct (A2 x Hx) as (z & X1 & X2). assert (q1 = e + 2 * z) by (rewrite K1, X1 in T3; apply Nat.mul_cancel_l in T3; lia). subst q1.
    destruct (Nat.ltb_spec (e + 2 * z + d) e) as [L|L]; [lia|].
    replace ((e + 2 * z + d - e) / 2) with z by (apply (Nat.div_unique _ _ _ d); lia). split; [lia|]. rewrite Nat.min_l by lia. lia.
  - destruct (A1 x Hx) as (X1 & X2). assert (q1 = e) by (rewrite K1, X1 in T3; apply Nat.mul_cancel_l in T3; lia). subst q1.
    destruct (Nat.ltb_spec (e + d) e) as [L|L]; [lia|].
    replace ((e + d - e) / 2) with 0 by (apply (Nat.div_unique _ _ _ d); lia). split; [lia|]. rewrite Nat.min_r by lia. replace (q - e) with 1 by lia. lia.
Qed.
Lemma band_of_call : forall t M N c i j, 0 < t -> In c (tile t t rowMajor M N) -> in_call c i j ->
  k_i c = band_start t M i /\ (k_full c = true <-> band_start t M i + band_height t M i <= M /\ t * (j / t) + t <= N).
Proof.
  intros t M N c i j Ht Hc Hp. destruct (tile_ok_disj_cover t Ht t Ht rowMajor M N) as (TA & _).
  destruct (TA c Hc) as (T1 & T2 & (q1 & T3) & (q2 & T4) & T5 & T6 & T7 & T8 & T9 & T10 & T11). clear TA.
  destruct (tile_edges _ _ _ _ _ _ Hc) as [E1 E2]. destruct Hp as [Hi Hj].
  destruct (band_of_row t M N c i Ht Hc ltac:(lia)) as [G1 G2]. split; auto. rewrite <- G1, <- G2.
  assert (QJ : t * (j / t) = k_j c).
  { rewrite T4. f_equal. symmetry. apply (Nat.div_unique j t q2 (j - k_j c)); lia. }
  rewrite QJ, T9. rewrite T2 in *. split.
  - intros [H1 H2]. lia.
  - intros [H1 H2]. lia.
Qed.

(** The left-hand trmm for every size.  Where the band of row i fits into the matrix and so does the tile of column j, only the upper triangle of A is
    used, starting at the SIMD row of i; everywhere else row i of A is used from the first row of the band on, including the elements below the diagonal. *)
Theorem C25_trmm_left_any_size : forall SS cc T (O : Ops T) al alpha A B C m, 0 < SS -> 0 < cc -> trmmL_pre SS cc al A B C ->
  let M := g_rows B in let N := g_cols B in let TS := cc * SS in
  let a i k := m (g_addr SS A i k) in let b k j := m (g_addr SS B k j) in
  exists m', trmmL SS cc T O al alpha A Upper false B C m = Ok m' /\
    updated (block M N) (g_addr SS C)
      (fun i j =>
         if (band_start TS M i + band_height TS M i <=? M) && (TS * (j / TS) + TS <=? N) then
           let s := SS * (i / SS) in fma_chain O (M - s) (fun k => omul O alpha (upper_of O a i (s + k))) (fun k => b (s + k) j) (o0 O)
         else
           let s := band_start TS M i in fma_chain O (M - s) (fun k => omul O alpha (a i (s + k))) (fun k => b (s + k) j) (o0 O)) m m'.
Proof.
  intros SS cc T O al alpha A B C m HSS Hcc P M N t a b.
  destruct (left_run SS cc T O al alpha A B C m HSS Hcc P) as (m' & E & U1 & U2).
  exists m'. split; auto. split; auto. intros i j Hij. rewrite U1 by auto. unfold trmmL_val.
  pose proof (TS_pos SS HSS cc Hcc) as HT.
  destruct (tile_ok_disj_cover (TS SS cc) HT (TS SS cc) HT rowMajor (g_rows B) (g_cols B)) as (TA & TB & TC).
  destruct Hij as [Hi Hj]. destruct (TC i j Hi Hj) as (c & Hc & Hp). rewrite (find_call _ c) by auto.
  destruct (band_of_call (TS SS cc) M N c i j HT Hc Hp) as [K1 K2]. change (TS SS cc) with t in *.
  unfold trmmL_elem. destruct (k_full c).
  - destruct K2 as [K2 _]. destruct (K2 eq_refl) as [K3 K4]. apply Nat.leb_le in K3, K4. rewrite K3, K4. reflexivity.
  - destruct (Nat.leb_spec (band_start t M i + band_height t M i) M), (Nat.leb_spec (t * (j / t) + t) N); cbn [andb]; try (rewrite K1; reflexivity).
    destruct K2 as [_ K2]. discriminate K2. auto.
Qed.
(** Over a commutative ring: the elements of A that contribute are the upper triangle and, in bands or tiles that do not fit, the columns of the band
    below the diagonal. *)
Theorem C25_trmm_left_any_size_ring : forall SS cc T (O : Ops T) al alpha A B C m, 0 < SS -> 0 < cc -> ring_laws O -> trmmL_pre SS cc al A B C ->
  let M := g_rows B in let N := g_cols B in let TS := cc * SS in
  let fits i j := (band_start TS M i + band_height TS M i <=? M) && (TS * (j / TS) + TS <=? N) in
  let used i j k := (i <=? k) || (negb (fits i j) && (band_start TS M i <=? k)) in
  exists m', trmmL SS cc T O al alpha A Upper false B C m = Ok m' /\
    updated (block M N) (g_addr SS C)
      (fun i j => omul O alpha (sum O M (fun k => omul O (if used i j k then m (g_addr SS A i k) else o0 O) (m (g_addr SS B k j))))) m m'.
Proof.
  intros SS cc T O al alpha A B C m HSS Hcc RL P M N t fits used.
  destruct (C25_trmm_left_any_size SS cc T O al alpha A B C m HSS Hcc P) as (m' & E & U1 & U2).
  exists m'. split; auto. split; auto. intros i j Hij. rewrite U1 by auto. fold M N. change (cc * SS) with t. fold (fits i j). clear U1 U2 E.
  assert (G : forall s f, (forall k, k < s -> used i j k = false) -> (forall k, k < M - s -> f k = if used i j (s + k) then m (g_addr SS A i (s + k)) else o0 O) -> s <= M ->
     fma_chain O (M - s) (fun k => omul O alpha (f k)) (fun k => m (g_addr SS B (s + k) j)) (o0 O) =
     omul O alpha (sum O M (fun k => omul O (if used i j k then m (g_addr SS A i k) else o0 O) (m (g_addr SS B k j))))).
  { intros s f Hs Hf L. rewrite fma_chain_sum, (rl_add_0 O RL) by auto.
    rewrite <- (sum_scale O RL). replace M with (s + (M - s)) at 2 by lia. rewrite (sum_split O RL).
    rewrite (sum_0 O RL s), (rl_add_0 O RL).
    - apply sum_ext. intros k Hk. rewrite Hf by auto. symmetry. apply (rl_mul_assoc O RL).
    - intros k Hk. rewrite Hs by auto. rewrite (mul_0_l O RL). apply (mul_0_r O RL). }
  destruct Hij as [Hi Hj].
  assert (BS : band_start t M i <= i).
  { pose proof (TS_pos SS HSS cc Hcc) as HT. change (TS SS cc) with t in HT.
    destruct (tile_ok_disj_cover t HT t HT rowMajor M N) as (_ & _ & TC). destruct (TC i j Hi Hj) as (c & Hc & Hp).
    destruct (band_of_call t M N c i j HT Hc Hp) as [K1 _]. rewrite <- K1. apply Hp. }
  assert (SB : SS * (i / SS) <= i) by (apply Nat.mul_div_le; lia).
  destruct (fits i j) eqn:F; cbv zeta.
  - apply (G (SS * (i / SS)) (fun k => upper_of O (fun i k => m (g_addr SS A i k)) i (SS * (i / SS) + k))); try lia.
    + intros k Hk. unfold used. rewrite F. cbn [negb andb]. rewrite orb_false_r. apply Nat.leb_gt. lia.
    + intros k Hk. unfold used, upper_of. rewrite F. cbn [negb andb]. rewrite orb_false_r. reflexivity.
  - apply (G (band_start t M i)); try lia.
    + intros k Hk. unfold used. rewrite F. cbn [negb andb]. apply orb_false_intro; apply Nat.leb_gt; lia.
    + intros k Hk. unfold used. rewrite F. cbn [negb andb].
      destruct (Nat.leb_spec (band_start t M i) (band_start t M i + k)); [|lia]. rewrite orb_true_r. reflexivity.
Qed.
(** The bands, for tiles of 4 rows: 16 rows are 8 + 8, 15 rows are 12 + 3 of 4, 21 rows are 12 + 9 of 12, 6 rows are 6 of 8. *)
Example C25_bands_example :
  map (fun i => (band_start 4 16 i, band_height 4 16 i)) [0; 7; 8; 15] = [(0, 8); (0, 8); (8, 8); (8, 8)] /\
  map (fun i => (band_start 4 15 i, band_height 4 15 i)) [0; 11; 12; 14] = [(0, 12); (0, 12); (12, 4); (12, 4)] /\
  map (fun i => (band_start 4 21 i, band_height 4 21 i)) [11; 12; 20] = [(0, 12); (12, 12); (12, 12)] /\
  (band_start 4 6 5, band_height 4 6 5) = (0, 8).
Proof. repeat split. Qed.
(** The operands of C25's example (6 rows, 5 columns, tiles of 4) meet the hypotheses; no band fits: A(5, 0) is used, below the diagonal. *)
Example C25_any_size_example : trmmL_pre 4 1 e_al (MArg (whole eA) false) (MArg (whole eB) false) (MArg (whole eC) false) /\
  g_rows (MArg (whole eB) false) = 6 /\ band_start 4 6 5 + band_height 4 6 5 = 8 /\
  match trmmL 4 1 Z zops e_al 1%Z (MArg (whole eA) false) Upper false (MArg (whole eB) false) (MArg (whole eC) false)
          (fun a => if a =? c_addr 4 eA 5 0 then 3%Z else if a =? c_addr 4 eB 0 0 then 7%Z else 0%Z) with
  | Ok m' => m' (g_addr 4 (MArg (whole eC) false) 5 0) = 21%Z | _ => False end.
Proof. split; [exact C25_example|]. split; [reflexivity|]. split; [reflexivity|]. vm_compute. reflexivity. Qed.
