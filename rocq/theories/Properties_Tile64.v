(** Properties_Tile64.v -- C68: tile() in 64-bit arithmetic. *)
From Coq Require Import Arith NArith Lia List Bool PeanoNat.
From Verif Require Import Base Base_Proofs Layout_Model Layout_Proofs Words_Model Tile_Model Tile64_Model Properties_Tile.
Import ListNotations.

(** A call with its numbers as 64-bit words *)
Definition words (c : call) : call64 :=
  Call64 (N.of_nat (k_rm c)) (N.of_nat (k_n c)) (N.of_nat (k_i c)) (N.of_nat (k_j c)) (N.of_nat (k_m c)) (N.of_nat (k_nn c)) (k_full c).

Lemma w64_pos : (0 < W64)%N. Proof. reflexivity. Qed.
Lemma add64_ok : forall a b : nat, (N.of_nat (a + b) < W64)%N -> add64 (N.of_nat a) (N.of_nat b) = N.of_nat (a + b).
Proof. intros a b H. unfold add64. rewrite Nat2N.inj_add in *. apply N.mod_small. exact H. Qed.
Lemma sub64_ok : forall a b : nat, b <= a -> (N.of_nat a < W64)%N -> sub64 (N.of_nat a) (N.of_nat b) = N.of_nat (a - b).
Proof.
  intros a b H HW. unfold sub64. replace (N.of_nat a + W64 - N.of_nat b)%N with (N.of_nat (a - b) + 1 * W64)%N by lia.
  rewrite N.mod_add by discriminate. apply N.mod_small. lia.
Qed.
Lemma leb_N : forall a b : nat, (N.of_nat a <=? N.of_nat b)%N = (a <=? b).
Proof. intros. destruct (N.leb_spec (N.of_nat a) (N.of_nat b)), (Nat.leb_spec a b); auto; lia. Qed.
Lemma ltb_N : forall a b : nat, (N.of_nat a <? N.of_nat b)%N = (a <? b).
Proof. intros. destruct (N.ltb_spec (N.of_nat a) (N.of_nat b)), (Nat.ltb_spec a b); auto; lia. Qed.
Lemma ne_N : forall a b : nat, ne64 (N.of_nat a) (N.of_nat b) = negb (a =? b).
Proof. intros. unfold ne64. f_equal. destruct (N.eqb_spec (N.of_nat a) (N.of_nat b)), (Nat.eqb_spec a b); auto; lia. Qed.

Lemma steps64_ok : forall bound B cond cond64 step, 0 < step -> (N.of_nat B < W64)%N ->
  (forall i, i <= B -> cond64 (N.of_nat i) = cond i) ->
  (forall i, i <= B -> cond i = true -> i < bound /\ i + step <= B) ->
  forall fuel F i, i <= B -> bound - i < fuel -> fuel <= F ->
  steps64 F cond64 (N.of_nat step) (N.of_nat i) = Some (map N.of_nat (fst (steps fuel cond step i)), N.of_nat (snd (steps fuel cond step i))) /\
  snd (steps fuel cond step i) <= B /\ (forall x, In x (fst (steps fuel cond step i)) -> x <= B).
Proof.
  intros bound B cond cond64 step Hs HB EC HC. induction fuel as [|fuel IH]; intros F i Hi Hb HF; [lia|].
  destruct F as [|F]; [lia|]. cbn [steps64 steps]. rewrite EC by auto. destruct (cond i) eqn:E.
  - destruct (HC i Hi E) as [H1 H2]. rewrite add64_ok by lia. destruct (IH F (i + step)) as (E2 & K1 & K2); try lia. rewrite E2. cbn [fst snd map].
    split; [reflexivity|]. split; [exact K1|]. intros x [<-|Hx]; auto.
  - cbn [fst snd map]. split; [reflexivity|]. split; [exact Hi|]. intros x [].
Qed.

Section T.
Variables (SS STEP m n : nat).
Hypothesis HSS : 0 < SS.
Hypothesis HST : 0 < STEP.
Hypothesis Hm : (N.of_nat m + 6 * N.of_nat SS < 2 ^ 64)%N.
Hypothesis Hn : (N.of_nat n + N.of_nat STEP < 2 ^ 64)%N.
Local Lemma Hm' : (N.of_nat (m + 6 * SS) < W64)%N. Proof. change (2 ^ 64)%N with W64 in Hm. lia. Qed.
Local Lemma Hn' : (N.of_nat (n + STEP) < W64)%N. Proof. change (2 ^ 64)%N with W64 in Hn. lia. Qed.
Let S' := N.of_nat SS. Let P' := N.of_nat STEP. Let m' := N.of_nat m. Let n' := N.of_nat n.

Lemma mulS : forall k (K : N), K = N.of_nat k -> (K * S')%N = N.of_nat (k * SS).
Proof. intros k K ->. unfold S'. lia. Qed.
Ltac ws := unfold S', m', n', P'; repeat first [rewrite (mulS 4) by reflexivity | rewrite (mulS 3) by reflexivity | rewrite (mulS 2) by reflexivity | rewrite (mulS 1) by reflexivity | rewrite (mulS 0) by reflexivity].

Lemma cols_ok : forall F, n + 1 <= F ->
  let r := steps (n + 1) (fun j => j + STEP <=? n) STEP 0 in
  steps64 F (fun j => (add64 j P' <=? n')%N) P' 0 = Some (map N.of_nat (fst r), N.of_nat (snd r)) /\ snd r <= n /\ (forall x, In x (fst r) -> x <= n).
Proof.
  intros F HF. pose proof Hn' as W. refine (steps64_ok n n _ _ STEP _ _ _ _ (n + 1) F 0 _ _ _); auto; try lia.
  - intros i Hi. unfold P', n'. rewrite add64_ok by lia. apply leb_N.
  - intros i Hi E. apply Nat.leb_le in E. lia.
Qed.
Lemma backend_ok : forall F RM i, n + 1 <= F -> (RM <= 3)%nat -> i <= m -> 
  tile_backend64 S' F (N.of_nat RM) P' m' n' (N.of_nat i) = Some (map words (tile_backend SS RM STEP m n i)).
Proof.
  intros F RM i HF HRM Hi. pose proof Hn' as Wn. pose proof Hm' as Wm. destruct (cols_ok F HF) as (E & B1 & B2). unfold tile_backend64, tile_backend. rewrite E. cbn [obind snd fst].
  set (r := steps (n + 1) (fun j => j + STEP <=? n) STEP 0) in *.
  replace (N.of_nat RM * S')%N with (N.of_nat (RM * SS)) by (unfold S'; lia).
  rewrite add64_ok by nia. unfold m', n'. rewrite leb_N, ltb_N.
  destruct (i + RM * SS <=? m).
  - apply (f_equal Some). rewrite map_app, !map_map. apply f_equal2; [reflexivity|]. destruct (snd r <? n); [|reflexivity].
    rewrite sub64_ok by lia. reflexivity.
  - apply (f_equal Some). rewrite map_app, !map_map. apply f_equal2; [|destruct (snd r <? n); [|reflexivity]; rewrite !sub64_ok by lia; reflexivity].
    apply map_ext. intros j. rewrite sub64_ok by lia. reflexivity.
Qed.
Lemma column_ok : forall F full j (J : N) cols, m + 1 <= F -> J = N.of_nat j ->
  tile_column64 S' P' F full m' J (N.of_nat cols) = Some (map words (tile_column SS STEP full m j cols)).
Proof.
  intros F full j J cols HF ->. pose proof Hm' as W. unfold tile_column64, tile_column.
  assert (E3 : let r := steps (m + 1) (fun i => (i + 3 * SS <=? m) && negb (i + 4 * SS =? m)) (3 * SS) 0 in
     steps64 F (fun i => (add64 i (3 * S') <=? m')%N && ne64 (add64 i (4 * S')) m') (3 * S') 0 = Some (map N.of_nat (fst r), N.of_nat (snd r)) /\ snd r <= m /\ (forall x, In x (fst r) -> x <= m)).
  { ws. refine (steps64_ok m m _ _ _ _ _ _ _ (m + 1) F 0 _ _ _); auto; try lia.
    - intros i Hi. rewrite !add64_ok by lia. rewrite leb_N, ne_N. reflexivity.
    - intros i Hi E. apply andb_true_iff in E. destruct E as [E _]. apply Nat.leb_le in E. lia. }
  cbv zeta in E3. destruct E3 as (E3 & B3 & _). rewrite E3. cbn [obind fst snd].
  set (r3 := steps (m + 1) (fun i => (i + 3 * SS <=? m) && negb (i + 4 * SS =? m)) (3 * SS) 0) in *.
  assert (E2 : let r := steps (m + 1) (fun i => i + 2 * SS <=? m) (2 * SS) (snd r3) in
     steps64 F (fun i => (add64 i (2 * S') <=? m')%N) (2 * S') (N.of_nat (snd r3)) = Some (map N.of_nat (fst r), N.of_nat (snd r)) /\ snd r <= m /\ (forall x, In x (fst r) -> x <= m)).
  { ws. refine (steps64_ok m m _ _ _ _ _ _ _ (m + 1) F _ _ _ _); auto; try lia.
    - intros i Hi. rewrite !add64_ok by lia. apply leb_N.
    - intros i Hi E. apply Nat.leb_le in E. lia. }
  cbv zeta in E2. destruct E2 as (E2 & B2 & _). rewrite E2. cbn [obind fst snd].
  set (r2 := steps (m + 1) (fun i => i + 2 * SS <=? m) (2 * SS) (snd r3)) in *.
  assert (E1 : let r := steps (m + 1) (fun i => i + 1 * SS <=? m) (1 * SS) (snd r2) in
     steps64 F (fun i => (add64 i (1 * S') <=? m')%N) (1 * S') (N.of_nat (snd r2)) = Some (map N.of_nat (fst r), N.of_nat (snd r)) /\ snd r <= m /\ (forall x, In x (fst r) -> x <= m)).
  { ws. refine (steps64_ok m m _ _ _ _ _ _ _ (m + 1) F _ _ _ _); auto; try lia.
    - intros i Hi. rewrite !add64_ok by lia. apply leb_N.
    - intros i Hi E. apply Nat.leb_le in E. lia. }
  cbv zeta in E1. destruct E1 as (E1 & B1 & _). rewrite E1. cbn [obind fst snd].
  set (r1 := steps (m + 1) (fun i => i + 1 * SS <=? m) (1 * SS) (snd r2)) in *.
  apply (f_equal Some). rewrite !map_app, !map_map. unfold m'. rewrite ltb_N.
  apply f_equal2; [apply map_ext; intros i; unfold words; cbn [k_rm k_n k_i k_j k_m k_nn k_full]; ws; reflexivity|].
  apply f_equal2; [apply map_ext; intros i; unfold words; cbn [k_rm k_n k_i k_j k_m k_nn k_full]; ws; reflexivity|].
  apply f_equal2; [apply map_ext; intros i; unfold words; cbn [k_rm k_n k_i k_j k_m k_nn k_full]; ws; reflexivity|].
  destruct (snd r1 <? m); [|reflexivity]. rewrite sub64_ok by lia. reflexivity.
Qed.
Lemma all64_ok : forall (f : N -> option (list call64)) (g : nat -> list call) l, (forall i, In i l -> f (N.of_nat i) = Some (map words (g i))) ->
  all64 (map f (map N.of_nat l)) = Some (map words (concat (map g l))).
Proof.
  intros f g. induction l as [|a l IH]; intros H; cbn [map all64 concat]; [reflexivity|]. rewrite H by (left; auto). cbn [obind].
  rewrite IH by (intros; apply H; right; auto). cbn [obind]. rewrite map_app. reflexivity.
Qed.
Lemma tile64_ok : forall F tr, m + n + 1 <= F -> tile64 S' P' F tr m' n' = Some (map words (tile SS STEP tr m n)).
Proof.
  intros F tr HF. pose proof Hm' as W. destruct tr; unfold tile64, tile.
  - assert (E3 : let r := steps (m + 1) (fun i => (i + 2 * SS <? m) && negb (i + 4 * SS =? m)) (3 * SS) 0 in
      steps64 F (fun i => (add64 i (2 * S') <? m')%N && ne64 (add64 i (4 * S')) m') (3 * S') 0 = Some (map N.of_nat (fst r), N.of_nat (snd r)) /\ snd r <= m + SS /\ (forall x, In x (fst r) -> x <= m + SS)).
    { ws. refine (steps64_ok m (m + SS) _ _ _ _ _ _ _ (m + 1) F 0 _ _ _); auto; try lia.
      - intros i Hi. rewrite !add64_ok by lia. rewrite ltb_N, ne_N. reflexivity.
      - intros i Hi E. apply andb_true_iff in E. destruct E as [E _]. apply Nat.ltb_lt in E. lia. }
    assert (I3 : forall x, In x (fst (steps (m + 1) (fun i => (i + 2 * SS <? m) && negb (i + 4 * SS =? m)) (3 * SS) 0)) -> x <= m).
    { intros x Hx. destruct (steps_spec (fun _ => True) (fun i => (i + 2 * SS <? m) && negb (i + 4 * SS =? m)) (3 * SS) (m + 1) 0 m) as (_ & _ & _ & K); auto; try lia.
      - intros k _ E. apply andb_true_iff in E. destruct E as [E _]. apply Nat.ltb_lt in E. lia.
      - destruct (K x Hx) as (_ & E & _). apply andb_true_iff in E. destruct E as [E _]. apply Nat.ltb_lt in E. lia. }
    cbv zeta in E3. destruct E3 as (E3 & B3 & _). rewrite E3. cbn [obind fst snd].
    set (r3 := steps (m + 1) (fun i => (i + 2 * SS <? m) && negb (i + 4 * SS =? m)) (3 * SS) 0) in *.
    rewrite (all64_ok _ (fun i => tile_backend SS 3 STEP m n i)) by (intros i Hi; apply (backend_ok F 3 i); auto; lia). cbn [obind].
    assert (E2 : let r := steps (m + 1) (fun i => i + 1 * SS <? m) (2 * SS) (snd r3) in
      steps64 F (fun i => (add64 i (1 * S') <? m')%N) (2 * S') (N.of_nat (snd r3)) = Some (map N.of_nat (fst r), N.of_nat (snd r)) /\ snd r <= m + SS /\ (forall x, In x (fst r) -> x <= m + SS)).
    { ws. refine (steps64_ok m (m + SS) _ _ _ _ _ _ _ (m + 1) F _ _ _ _); auto; try lia.
      - intros i Hi. rewrite !add64_ok by lia. apply ltb_N.
      - intros i Hi E. apply Nat.ltb_lt in E. lia. }
    assert (I2 : forall x, In x (fst (steps (m + 1) (fun i => i + 1 * SS <? m) (2 * SS) (snd r3))) -> x <= m).
    { intros x Hx. destruct (steps_spec (fun _ => True) (fun i => i + 1 * SS <? m) (2 * SS) (m + 1) (snd r3) m) as (_ & _ & _ & K); auto; try lia.
      - intros k _ E. apply Nat.ltb_lt in E. lia.
      - destruct (K x Hx) as (_ & E & _). apply Nat.ltb_lt in E. lia. }
    cbv zeta in E2. destruct E2 as (E2 & B2 & _). rewrite E2. cbn [obind fst snd].
    set (r2 := steps (m + 1) (fun i => i + 1 * SS <? m) (2 * SS) (snd r3)) in *.
    rewrite (all64_ok _ (fun i => tile_backend SS 2 STEP m n i)) by (intros i Hi; apply (backend_ok F 2 i); auto; lia). cbn [obind].
    assert (E1 : let r := steps (m + 1) (fun i => i + 0 * SS <? m) (1 * SS) (snd r2) in
      steps64 F (fun i => (add64 i (0 * S') <? m')%N) (1 * S') (N.of_nat (snd r2)) = Some (map N.of_nat (fst r), N.of_nat (snd r)) /\ snd r <= m + SS /\ (forall x, In x (fst r) -> x <= m + SS)).
    { ws. refine (steps64_ok m (m + SS) _ _ _ _ _ _ _ (m + 1) F _ _ _ _); auto; try lia.
      - intros i Hi. rewrite !add64_ok by lia. apply ltb_N.
      - intros i Hi E. apply Nat.ltb_lt in E. lia. }
    assert (I1 : forall x, In x (fst (steps (m + 1) (fun i => i + 0 * SS <? m) (1 * SS) (snd r2))) -> x <= m).
    { intros x Hx. destruct (steps_spec (fun _ => True) (fun i => i + 0 * SS <? m) (1 * SS) (m + 1) (snd r2) m) as (_ & _ & _ & K); auto; try lia.
      - intros k _ E. apply Nat.ltb_lt in E. lia.
      - destruct (K x Hx) as (_ & E & _). apply Nat.ltb_lt in E. lia. }
    cbv zeta in E1. destruct E1 as (E1 & B1 & _). rewrite E1. cbn [obind fst snd].
    rewrite (all64_ok _ (fun i => tile_backend SS 1 STEP m n i)) by (intros i Hi; apply (backend_ok F 1 i); auto; lia). cbn [obind].
    rewrite !map_app. reflexivity.
  - destruct (cols_ok F) as (E & B1 & B2); [lia|]. rewrite E. cbn [obind fst snd].
    set (r := steps (n + 1) (fun j => j + STEP <=? n) STEP 0) in *.
    rewrite (all64_ok _ (fun j => tile_column SS STEP true m j STEP)) by (intros j Hj; apply column_ok; auto; lia). cbn [obind].
    unfold n'. rewrite ltb_N. pose proof Hn' as Wn. destruct (snd r <? n).
    + rewrite sub64_ok by lia. rewrite (column_ok F false (snd r) (N.of_nat (snd r))) by (auto; lia). cbn [obind]. rewrite map_app. reflexivity.
    + cbn [obind map]. rewrite !app_nil_r. reflexivity.
Qed.
End T.

(** Unless the number of rows or columns is within a few tiles of 2^64, the loops end and make exactly the calls of the unbounded model, for which C15 and C16 are proved. *)
Theorem C68_tile_words : forall (SS STEP m n : nat) traversal, 0 < SS -> 0 < STEP ->
  (N.of_nat m + 6 * N.of_nat SS < 2 ^ 64)%N -> (N.of_nat n + N.of_nat STEP < 2 ^ 64)%N ->
  exists enough, forall fuel, enough <= fuel ->
    tile64 (N.of_nat SS) (N.of_nat STEP) fuel traversal (N.of_nat m) (N.of_nat n) = Some (map words (tile SS STEP traversal m n)).
Proof. intros SS STEP m n tr H1 H2 H3 H4. exists (m + n + 1). intros fuel HF. apply tile64_ok; auto. Qed.

(** In particular for every non-empty matrix that fits into memory. *)
Theorem C68_tile_in_memory : forall (SS STEP : nat) traversal c (sz : nat), 0 < SS -> 0 < STEP -> SS <= 1024 -> STEP <= 1024 -> 2 <= sz ->
  0 < c_rows c -> 0 < c_cols c -> (N.of_nat (c_capacity SS c) * N.of_nat sz < 2 ^ 64)%N ->
  exists enough, forall fuel, enough <= fuel ->
    tile64 (N.of_nat SS) (N.of_nat STEP) fuel traversal (N.of_nat (c_rows c)) (N.of_nat (c_cols c)) = Some (map words (tile SS STEP traversal (c_rows c) (c_cols c))).
Proof.
  intros SS STEP tr c sz HSS HST B1 B2 Hsz Hr Hc Hcap. change (2 ^ 64)%N with W64 in Hcap.
  assert (K : c_rows c <= c_capacity SS c /\ c_cols c <= c_capacity SS c).
  { pose proof (nextMultiple_spec (c_rows c) SS HSS) as NR. pose proof (nextMultiple_spec (c_cols c) SS HSS) as NC.
    assert (TI : forall x, x <= (x / SS + (if 0 <? x mod SS then 1 else 0)) * SS).
    { intros x. pose proof (Nat.div_mod x SS ltac:(lia)) as D. pose proof (Nat.mod_upper_bound x SS ltac:(lia)) as U. destruct (Nat.ltb_spec 0 (x mod SS)); nia. }
    assert (MU : forall a b x, x <= a -> 1 <= b -> x <= a * b) by (intros; nia).
    pose proof (TI (c_rows c)) as TR. pose proof (TI (c_cols c)) as TC.
    set (tr' := c_rows c / SS + (if 0 <? c_rows c mod SS then 1 else 0)) in *. set (tc := c_cols c / SS + (if 0 <? c_cols c mod SS then 1 else 0)) in *.
    assert (1 <= tr') by (destruct tr'; lia). assert (1 <= tc) by (destruct tc; lia).
    unfold c_capacity, c_spacing. cbv zeta. fold tr' tc. set (a := nextMultiple (c_rows c) SS) in *. set (b := nextMultiple (c_cols c) SS) in *.
    destruct (c_kind c), (c_so c); try (destruct (c_static c)); split;
      first [apply MU; lia | rewrite Nat.mul_comm; apply MU; lia
            | replace (tr' * (SS * c_cols c)) with (tr' * SS * c_cols c) by ring; apply MU; lia
            | replace (tr' * (SS * c_cols c)) with (c_cols c * (tr' * SS)) by ring; apply MU; nia
            | replace (tc * (SS * c_rows c)) with (tc * SS * c_rows c) by ring; apply MU; lia
            | replace (tc * (SS * c_rows c)) with (c_rows c * (tc * SS)) by ring; apply MU; nia
            | replace (SS * c_cols c * a) with (c_cols c * (SS * a)) by ring; apply MU; nia
            | replace (SS * c_rows c * b) with (c_rows c * (SS * b)) by ring; apply MU; nia
            | replace (SS * c_cols c * a) with (a * (SS * c_cols c)) by ring; apply MU; nia
            | replace (SS * c_rows c * b) with (b * (SS * c_rows c)) by ring; apply MU; nia]. }
  assert (W : W64 = 18446744073709551616%N) by reflexivity.
  apply C68_tile_words; auto; change (2 ^ 64)%N with W64; nia.
Qed.

(** A matrix without rows but with 2^64 - 1 columns takes no memory, and the column loop never ends; for a matrix without columns and 2^64 - 1 rows the same holds for
    the other traversal. *)
Lemma steps64_forever : forall (Inv : N -> Prop) cond step, (forall i, Inv i -> cond i = true /\ Inv (add64 i step)) -> forall fuel i, Inv i -> steps64 fuel cond step i = None.
Proof.
  intros Inv cond step H. induction fuel as [|fuel IH]; intros i Hi; cbn [steps64]; [reflexivity|]. destruct (H i Hi) as [-> H2]. rewrite IH by auto. reflexivity.
Qed.
Theorem C68_tile_ends_refuted : forall fuel m n,
  construct64 4 8 (2 ^ 63 - 1) Dense columnMajor 0 (2 ^ 64 - 1) = Some 0%N /\ tile64 4 4 fuel columnMajor m (2 ^ 64 - 1) = None /\
  construct64 4 8 (2 ^ 63 - 1) Panel columnMajor (2 ^ 64 - 1) 0 = Some 0%N /\ tile64 4 4 fuel rowMajor (2 ^ 64 - 1) n = None.
Proof.
  intros fuel m n. split; [vm_compute; reflexivity|]. split; [|split; [vm_compute; reflexivity|]].
  - unfold tile64. rewrite (steps64_forever (fun _ => True)); auto. intros i _. split; auto. apply N.leb_le. unfold add64.
    pose proof (N.mod_lt (i + 4) W64 ltac:(discriminate)). change (2 ^ 64)%N with W64. lia.
  - unfold tile64. rewrite (steps64_forever (fun i => i mod 2 = 0)%N); auto.
    intros i Hi. assert (EV : forall k, (((i + 2 * k) mod W64) mod 2 = 0)%N).
    { intros k. pose proof (N.div_mod (i + 2 * k) W64 ltac:(discriminate)) as D. pose proof (N.div_mod i 2 ltac:(discriminate)) as D2. rewrite Hi in D2.
      assert (W : W64 = (2 * 9223372036854775808)%N) by reflexivity. set (q := ((i + 2 * k) / W64)%N) in *. set (r := ((i + 2 * k) mod W64)%N) in *. set (h := (i / 2)%N) in *.
      assert (R : (r = (h + k - 9223372036854775808 * q) * 2)%N) by lia. rewrite R. apply N.mod_mul. discriminate. }
    split.
    + apply andb_true_iff. split.
      * apply N.ltb_lt. unfold add64. pose proof (EV 4%N) as E. change (2 * 4)%N with 8%N in *. pose proof (N.mod_lt (i + 8) W64 ltac:(discriminate)) as L.
        set (x := ((i + 8) mod W64)%N) in *. change (2 ^ 64)%N with W64. assert (x <> W64 - 1)%N by (intros X; rewrite X in E; vm_compute in E; discriminate). lia.
      * unfold ne64, add64. apply negb_true_iff, N.eqb_neq. intros X. pose proof (EV 8%N) as E. change (2 * 8)%N with 16%N in *. change (4 * 4)%N with 16%N in X. rewrite X in E. vm_compute in E. discriminate.
    + unfold add64. change (3 * 4)%N with (2 * 6)%N. apply EV.
Qed.

(* ------------------------------------------------------------------ example *)
Example C68_example : tile64 4 4 40 rowMajor 13 5 = Some (map words (tile 4 4 rowMajor 13 5)) /\ length (tile 4 4 rowMajor 13 5) = 4 /\
  exists enough, forall fuel, enough <= fuel -> tile64 4 4 fuel columnMajor (N.of_nat 13) (N.of_nat 5) = Some (map words (tile 4 4 columnMajor 13 5)).
Proof.
  split; [vm_compute; reflexivity|]. split; [vm_compute; reflexivity|].
  apply (C68_tile_in_memory 4 4 columnMajor (Cont Dense false columnMajor 13 5 0) 8); cbn [c_rows c_cols]; auto; try lia. apply N.ltb_lt. vm_compute. reflexivity.
Qed.
