(** Properties_Interop.v -- C54: conversion between Blaze and BLASFEO matrices; C55: blasfeo::DynamicMatrix and Blaze. *)
From Coq Require Import Arith NArith ZArith Lia List Bool PeanoNat.
From Verif Require Import Base Base_Proofs Spec Scan_Proofs Interop_Model Instances.
Import ListNotations.

(** Sizes, spacings and offsets representable as int. *)
Definition int_range (n : nat) : Prop := (N.of_nat n < 2 ^ 31)%N.
Lemma int_of_range : forall n, int_range n -> int_of n = Some n.
Proof.
  intros n H. unfold int_of, int_range in *. rewrite N.mod_small by lia.
  destruct (N.ltb_spec (N.of_nat n) (2 ^ 31)); [|lia]. rewrite Nat2N.id. reflexivity.
Qed.
Lemma int_of_negative : forall n, (2 ^ 31 <= N.of_nat n mod 2 ^ 32)%N -> int_of n = None.
Proof. intros n H. unfold int_of. destruct (N.ltb_spec (N.of_nat n mod 2 ^ 32) (2 ^ 31)); [lia|reflexivity]. Qed.

(** The m-by-n window of a BLASFEO matrix that starts at (bi, bj). *)
Definition window (B : smat) (bi bj : nat) : locations := fun i j => sm_at B (bi + i) (bj + j).
(** The element addresses of a dense Blaze matrix. *)
Definition order_at (o : order) (data spacing : nat) : locations :=
  fun i j => match o with columnMajor => data + i + spacing * j | rowMajor => data + j + spacing * i end.

Section S.
Variables (T : Type) (al : alloc).
Lemma copy_cols : forall m n (src dst : locations) (s : mem T), allocated al m n src -> allocated al m n dst -> distinct m n dst ->
  separate m n src m n dst ->
  exists s', for_ 0 n (fun j s => for_ 0 m (fun i s => x <- rd al s (src i j) ;; wr al s (dst i j) x) s) s = Ok s' /\
    updated (block m n) dst (fun i j => s (src i j)) s s'.
Proof.
  intros m n src dst s AS AD DD SEP.
  destruct (scan2_ok T al n m (fun j i => dst i j) (fun j i s => x <- rd al s (src i j) ;; wr al s (dst i j) x) (fun j i => s (src i j)) s) as (s' & E & U).
  - intros j i j' i' ? ? ? ? X. apply DD in X; auto. tauto.
  - intros j i s1 Hj Hi [U1 U2]. rewrite rd_ok by (apply AS; auto). cbn [bind]. rewrite wr_ok by (apply AD; auto). do 2 f_equal.
    apply U2. intros j' i' Hb. apply SEP; auto; destruct Hb as [[]|[]]; lia.
  - exists s'. split; [exact E|]. destruct U as [U1 U2]. split.
    + intros i j [Hi Hj]. apply (U1 j i). split; auto.
    + intros a Ha. apply U2. intros j i [Hj Hi]. apply Ha. split; auto.
Qed.
Lemma copy_rows : forall m n (src dst : locations) (s : mem T), allocated al m n src -> allocated al m n dst -> distinct m n dst ->
  separate m n src m n dst ->
  exists s', for_ 0 m (fun j s => for_ 0 n (fun i s => x <- rd al s (src j i) ;; wr al s (dst j i) x) s) s = Ok s' /\
    updated (block m n) dst (fun i j => s (src i j)) s s'.
Proof.
  intros m n src dst s AS AD DD SEP.
  destruct (copy_cols n m (fun i j => src j i) (fun i j => dst j i) s) as (s' & E & U).
  - intros i j ? ?. apply AS; auto.
  - intros i j ? ?. apply AD; auto.
  - intros i j i' j' ? ? ? ? X. apply DD in X; auto. tauto.
  - intros i j i' j' ? ? ? ?. apply SEP; auto.
  - exists s'. split; [exact E|]. destruct U as [U1 U2]. split.
    + intros i j [? ?]. apply (U1 j i). split; auto.
    + intros a Ha. apply U2. intros i j [? ?]. apply Ha. split; auto.
Qed.
End S.

Lemma bm_at_order : forall A, bm_at A = order_at (bm_order A) (bm_data A) (bm_spacing A).
Proof. intros A. unfold bm_at, order_at. destruct (bm_order A); reflexivity. Qed.

(** pack copies every element of a row- or column-major matrix A to the window at (bi, bj), and writes nothing else. *)
Theorem C54_pack : forall T al A B bi bj (s : mem T),
  int_range (bm_rows A) -> int_range (bm_cols A) -> int_range (bm_spacing A) -> int_range bi -> int_range bj ->
  allocated al (bm_rows A) (bm_cols A) (bm_at A) -> allocated al (bm_rows A) (bm_cols A) (window B bi bj) ->
  distinct (bm_rows A) (bm_cols A) (window B bi bj) -> separate (bm_rows A) (bm_cols A) (bm_at A) (bm_rows A) (bm_cols A) (window B bi bj) ->
  exists s', pack T al A B bi bj s = Ok s' /\
    updated (block (bm_rows A) (bm_cols A)) (window B bi bj) (fun i j => s (bm_at A i j)) s s'.
Proof.
  intros T al A B bi bj s R1 R2 R3 R4 R5 AA AB DB SEP. unfold pack.
  destruct (bm_order A) eqn:O.
  - unfold pack_tran_mat, lib_pack_tran, int_loops. rewrite !int_of_range by auto. cbn [need].
    rewrite bm_at_order, O in *. exact (copy_rows T al (bm_rows A) (bm_cols A) _ (window B bi bj) s AA AB DB SEP).
  - unfold pack_mat, lib_pack, int_loops. rewrite !int_of_range by auto. cbn [need].
    rewrite bm_at_order, O in *. exact (copy_cols T al (bm_rows A) (bm_cols A) _ (window B bi bj) s AA AB DB SEP).
Qed.
(** A column vector becomes a column, a row vector a row. *)
Definition vector_rows (tf : tflag) (n : nat) := match tf with columnVector => n | rowVector => 1 end.
Definition vector_cols (tf : tflag) (n : nat) := match tf with columnVector => 1 | rowVector => n end.
Theorem C54_pack_vector : forall T al tf n a B bi bj (s : mem T),
  int_range n -> int_range bi -> int_range bj ->
  let R := vector_rows tf n in let C := vector_cols tf n in
  (forall i, i < n -> al (a + i) = true) -> allocated al R C (window B bi bj) -> distinct R C (window B bi bj) ->
  (forall k i j, k < n -> i < R -> j < C -> a + k <> window B bi bj i j) ->
  exists s', pack_v T al tf n a B bi bj s = Ok s' /\ updated (block R C) (window B bi bj) (fun i j => s (a + (i + j))) s s'.
Proof.
  intros T al tf n a B bi bj s R1 R4 R5 R C AA AB DB SEP. unfold pack_v.
  assert (One : int_of 1 = Some 1) by (apply int_of_range; unfold int_range; lia).
  destruct tf; cbn [vector_rows vector_cols] in R, C; subst R C.
  - unfold pack_tran_mat, lib_pack_tran, int_loops. rewrite One, !int_of_range by auto. cbn [need].
    destruct (copy_rows T al 1 n (fun i j => a + j + n * i) (window B bi bj) s) as (s' & E & U); auto.
    + intros i j ? ?. replace i with 0 by lia. rewrite Nat.mul_0_r, Nat.add_0_r. auto.
    + intros i j i' j' ? ? ? ?. replace i with 0 by lia. rewrite Nat.mul_0_r, Nat.add_0_r. auto.
    + exists s'. split; [exact E|]. destruct U as [U1 U2]. split; auto. intros i j [? ?]. rewrite U1 by (split; auto). f_equal. replace i with 0 by lia. lia.
  - unfold pack_mat, lib_pack, int_loops. rewrite One, !int_of_range by auto. cbn [need].
    destruct (copy_cols T al n 1 (fun i j => a + i + n * j) (window B bi bj) s) as (s' & E & U); auto.
    + intros i j ? ?. replace j with 0 by lia. rewrite Nat.mul_0_r, Nat.add_0_r. auto.
    + intros i j i' j' ? ? ? ?. replace j with 0 by lia. rewrite Nat.mul_0_r, Nat.add_0_r. auto.
    + exists s'. split; [exact E|]. destruct U as [U1 U2]. split; auto. intros i j [? ?]. rewrite U1 by (split; auto). f_equal. replace j with 0 by lia. lia.
Qed.

(** What resize leaves: the wanted size and the storage order, and the same matrix if the size was right. *)
Lemma resize_ok : forall B m n B', bm_resize B m n = Ok B' ->
  bm_rows B' = m /\ bm_cols B' = n /\ bm_order B' = bm_order B /\ (bm_rows B = m -> bm_cols B = n -> B' = B).
Proof.
  intros B m n B' E. unfold bm_resize in E. destruct (Nat.eqb_spec (bm_rows B) m), (Nat.eqb_spec (bm_cols B) n); cbn [andb] in E;
    try (injection E as <-; auto; fail); destruct (bm_realloc B); try discriminate; injection E as <-; cbn; repeat split; auto; contradiction.
Qed.

(** unpack gives B the size m-by-n and copies the window at (ai, aj) into it; unpack_tran gives it the size n-by-m and copies the
    transposed window.  Nothing else is written. *)
Theorem C54_unpack : forall T al m n A ai aj B B' (s : mem T), bm_resize B m n = Ok B' ->
  int_range m -> int_range n -> int_range (bm_spacing B') -> int_range ai -> int_range aj ->
  allocated al m n (window A ai aj) -> allocated al m n (bm_at B') -> distinct m n (bm_at B') -> separate m n (window A ai aj) m n (bm_at B') ->
  exists s', unpack T al m n A ai aj B s = Ok (s', B') /\ bm_rows B' = m /\ bm_cols B' = n /\ bm_order B' = bm_order B /\
    updated (block m n) (bm_at B') (fun i j => s (sm_at A (ai + i) (aj + j))) s s'.
Proof.
  intros T al m n A ai aj B B' s RS R1 R2 R3 R4 R5 AA AB DB SEP. destruct (resize_ok B m n B' RS) as (S1 & S2 & S3 & _).
  unfold unpack. rewrite RS. cbn [bind]. rewrite bm_at_order in *. destruct (bm_order B') eqn:O.
  - unfold unpack_tran_mat, lib_unpack_tran, int_loops. rewrite !int_of_range by auto. cbn [need].
    destruct (copy_cols T al m n (window A ai aj) _ s AA AB DB SEP) as (s' & E & U). unfold window in E. cbn [order_at] in E, U. rewrite E. cbn [bind].
    exists s'. split; auto.
  - unfold unpack_mat, lib_unpack, int_loops. rewrite !int_of_range by auto. cbn [need].
    destruct (copy_cols T al m n (window A ai aj) _ s AA AB DB SEP) as (s' & E & U). unfold window in E. cbn [order_at] in E, U. rewrite E. cbn [bind].
    exists s'. split; auto.
Qed.
Theorem C54_unpack_tran : forall T al m n A ai aj B B' (s : mem T), bm_resize B n m = Ok B' ->
  int_range m -> int_range n -> int_range (bm_spacing B') -> int_range ai -> int_range aj ->
  allocated al m n (window A ai aj) -> allocated al n m (bm_at B') -> distinct n m (bm_at B') -> separate m n (window A ai aj) n m (bm_at B') ->
  exists s', unpack_tran T al m n A ai aj B s = Ok (s', B') /\ bm_rows B' = n /\ bm_cols B' = m /\ bm_order B' = bm_order B /\
    updated (block n m) (bm_at B') (fun i j => s (sm_at A (ai + j) (aj + i))) s s'.
Proof.
  intros T al m n A ai aj B B' s RS R1 R2 R3 R4 R5 AA AB DB SEP. destruct (resize_ok B n m B' RS) as (S1 & S2 & S3 & _).
  assert (AB' : allocated al m n (fun i j => bm_at B' j i)) by (intros i j ? ?; apply AB; auto).
  assert (DB' : distinct m n (fun i j => bm_at B' j i)) by (intros i j i' j' ? ? ? ? X; apply DB in X; auto; tauto).
  assert (SEP' : separate m n (window A ai aj) m n (fun i j => bm_at B' j i)) by (intros i j i' j' ? ? ? ?; apply SEP; auto).
  unfold unpack_tran. rewrite RS. cbn [bind]. rewrite bm_at_order in *.
  destruct (copy_cols T al m n (window A ai aj) _ s AA AB' DB' SEP') as (s' & E & U). unfold window in E.
  exists s'. destruct (bm_order B') eqn:O.
  - unfold unpack_mat, lib_unpack, int_loops. rewrite !int_of_range by auto. cbn [need]. cbn [order_at] in E, U. rewrite E. cbn [bind].
    split; [auto|split; [auto|split; [auto|split; [auto|]]]]. destruct U as [U1 U2]. split; [intros i j []; apply (U1 j i); split; auto|]. intros a Ha. apply U2. intros i j []. apply Ha. split; auto.
  - unfold unpack_tran_mat, lib_unpack_tran, int_loops. rewrite !int_of_range by auto. cbn [need]. cbn [order_at] in E, U. rewrite E. cbn [bind].
    split; [auto|split; [auto|split; [auto|split; [auto|]]]]. destruct U as [U1 U2]. split; [intros i j []; apply (U1 j i); split; auto|]. intros a Ha. apply U2. intros i j []. apply Ha. split; auto.
Qed.
(** A matrix that cannot be resized and has another size: exception, nothing written. *)
(** What the target is after the call: unchanged if it had the right size, otherwise reallocated for m rows and n columns in its own
    storage order. *)
Theorem C54_resize : forall B m n B', bm_resize B m n = Ok B' <->
  (bm_rows B = m /\ bm_cols B = n /\ B' = B) \/
  (~ (bm_rows B = m /\ bm_cols B = n) /\ exists f, bm_realloc B = Some f /\ bm_rows B' = m /\ bm_cols B' = n /\ bm_order B' = bm_order B /\
     bm_realloc B' = Some f /\ f m n = (bm_data B', bm_spacing B')).
Proof.
  intros B m n B'. unfold bm_resize. destruct (Nat.eqb_spec (bm_rows B) m), (Nat.eqb_spec (bm_cols B) n); cbn [andb].
  1: { split; [intros H; injection H as <-; left; auto|]. intros [(_ & _ & ->)|[H _]]; [auto|exfalso; auto]. }
  all: split.
  1, 3, 5: destruct (bm_realloc B) as [f|]; [|discriminate]; intros H; injection H as <-; right; split; [tauto|]; exists f; cbn; repeat split; auto;
    destruct (f m n); reflexivity.
  all: intros [(H1 & H2 & _)|(_ & f & E & E1 & E2 & E3 & E4 & E5)]; [contradiction|]; rewrite E, E5; destruct B'; cbn in *; congruence.
Qed.
Theorem C54_unpack_throws : forall T al m n A ai aj B (s : mem T), bm_realloc B = None ->
  (bm_rows B <> m \/ bm_cols B <> n -> unpack T al m n A ai aj B s = Throw InvalidArgument) /\
  (bm_rows B <> n \/ bm_cols B <> m -> unpack_tran T al m n A ai aj B s = Throw InvalidArgument).
Proof.
  intros T al m n A ai aj B s R. unfold unpack, unpack_tran, bm_resize. rewrite R.
  split; intros H; destruct (Nat.eqb_spec (bm_rows B) m), (Nat.eqb_spec (bm_cols B) n), (Nat.eqb_spec (bm_rows B) n), (Nat.eqb_spec (bm_cols B) m); cbn; auto; destruct H; contradiction.
Qed.

(** A round trip through a BLASFEO matrix, with any storage orders on both sides, gives the same elements back. *)
Theorem C54_roundtrip : forall T al A S bi bj B B' (s : mem T), let m := bm_rows A in let n := bm_cols A in
  bm_resize B m n = Ok B' ->
  int_range m -> int_range n -> int_range (bm_spacing A) -> int_range (bm_spacing B') -> int_range bi -> int_range bj ->
  allocated al m n (bm_at A) -> allocated al m n (window S bi bj) -> allocated al m n (bm_at B') ->
  distinct m n (window S bi bj) -> distinct m n (bm_at B') ->
  separate m n (bm_at A) m n (window S bi bj) -> separate m n (window S bi bj) m n (bm_at B') ->
  exists s1 s2, pack T al A S bi bj s = Ok s1 /\ unpack T al m n S bi bj B s1 = Ok (s2, B') /\
    forall i j, i < m -> j < n -> s2 (bm_at B' i j) = s (bm_at A i j).
Proof.
  intros T al A S bi bj B B' s m n RS R1 R2 R3 R4 R5 R6 AA AS AB DS DB SEP1 SEP2.
  destruct (C54_pack T al A S bi bj s R1 R2 R3 R5 R6 AA AS DS SEP1) as (s1 & E1 & U1).
  destruct (C54_unpack T al m n S bi bj B B' s1 RS R1 R2 R4 R5 R6 AS AB DB SEP2) as (s2 & E2 & _ & _ & _ & U2).
  exists s1, s2. split; [auto|split; [auto|]]. intros i j Hi Hj. rewrite (proj1 U2) by (split; auto). apply (proj1 U1). split; auto.
Qed.

(** Vectors. *)
Theorem C54_pack_vec : forall T al n x y yi (s : mem T), int_range n -> int_range yi ->
  (forall i, i < n -> al (x + i) = true) -> (forall i, i < n -> al (sv_at y (yi + i)) = true) ->
  (forall i i', i < n -> i' < n -> sv_at y (yi + i) = sv_at y (yi + i') -> i = i') -> (forall i i', i < n -> i' < n -> x + i <> sv_at y (yi + i')) ->
  exists s', pack_vv T al n x y yi s = Ok s' /\ (forall i, i < n -> s' (sv_at y (yi + i)) = s (x + i)) /\
    (forall a, (forall i, i < n -> a <> sv_at y (yi + i)) -> s' a = s a).
Proof.
  intros T al n x y yi s R1 R2 AX AY DY SEP. unfold pack_vv, pack_vec, lib_pack_vec, int_loops. rewrite !int_of_range by auto. cbn [need].
  destruct (copy_cols T al n 1 (fun i _ => x + i) (fun i _ => sv_at y (yi + i)) s) as (s' & E & U1 & U2).
  - intros i j ? ?; auto.
  - intros i j ? ?; auto.
  - intros i j i' j' ? ? ? ? X. apply DY in X; auto. split; [auto|lia].
  - intros i j i' j' ? ? ? ?. auto.
  - exists s'. split; [exact E|]. split; [intros i Hi; apply (U1 i 0); split; auto|]. intros a Ha. apply U2. intros i j []. auto.
Qed.
Theorem C54_unpack_vec : forall T al n x xi y (s : mem T), int_range n -> int_range xi ->
  (forall i, i < n -> al (y + i) = true) -> (forall i, i < n -> al (sv_at x (xi + i)) = true) -> (forall i i', i < n -> i' < n -> sv_at x (xi + i) <> y + i') ->
  exists s', unpack_v T al true n x xi y s = Ok s' /\ (forall i, i < n -> s' (y + i) = s (sv_at x (xi + i))) /\
    (forall a, (forall i, i < n -> a <> y + i) -> s' a = s a).
Proof.
  intros T al n x xi y s R1 R2 AY AX SEP. unfold unpack_v, unpack_vec, lib_unpack_vec, int_loops. rewrite !int_of_range by auto. cbn [need].
  destruct (copy_cols T al n 1 (fun i _ => sv_at x (xi + i)) (fun i _ => y + i) s) as (s' & E & U1 & U2).
  - intros i j ? ?; auto.
  - intros i j ? ?; auto.
  - intros i j i' j' ? ? ? ? X. split; lia.
  - intros i j i' j' ? ? ? ?. auto.
  - exists s'. split; [exact E|]. split; [intros i Hi; apply (U1 i 0); split; auto|]. intros a Ha. apply U2. intros i j []. auto.
Qed.
(** The vector version of unpack cannot be called in the natural way. *)
Theorem C54_unpack_vec_deduced_refuted : forall T al n x xi y (s : mem T), unpack_v T al false n x xi y s = IllFormed.
Proof. reflexivity. Qed.
(** The sizes are silently converted to int: a matrix with 2^31 rows or more (up to 2^32) is not copied at all, and no error is reported. *)
Theorem C54_int_refuted : forall T al A B bi bj (s : mem T),
  (2 ^ 31 <= N.of_nat (bm_rows A) mod 2 ^ 32)%N \/ (2 ^ 31 <= N.of_nat (bm_cols A) mod 2 ^ 32)%N -> pack T al A B bi bj s = Ok s.
Proof.
  intros T al A B bi bj s H. unfold pack, pack_mat, pack_tran_mat, lib_pack, lib_pack_tran, int_loops.
  destruct (bm_order A), H as [H|H]; rewrite (int_of_negative _ H); auto; match goal with |- context [int_of ?x] => destruct (int_of x) end; reflexivity.
Qed.

(** Initialisation and scaling of BLASFEO vectors. *)
Theorem C54_vecse : forall T al n alpha x xi (s : mem T), int_range n -> int_range xi ->
  (forall i, i < n -> al (sv_at x (xi + i)) = true) -> (forall i i', i < n -> i' < n -> sv_at x (xi + i) = sv_at x (xi + i') -> i = i') ->
  exists s', vecse T al n alpha x xi s = Ok s' /\ (forall i, i < n -> s' (sv_at x (xi + i)) = alpha) /\
    (forall a, (forall i, i < n -> a <> sv_at x (xi + i)) -> s' a = s a).
Proof.
  intros T al n alpha x xi s R1 R2 AX DX. unfold vecse, lib_vecse, int_loops. rewrite !int_of_range by auto. cbn [need].
  destruct (scan2_ok T al 1 n (fun _ i => sv_at x (xi + i)) (fun _ i s => wr al s (sv_at x (xi + i)) alpha) (fun _ _ => alpha) s) as (s' & E & U1 & U2).
  - intros i j i' j' ? ? ? ? X. apply DX in X; auto. split; [lia|auto].
  - intros i j s1 ? ? _. apply wr_ok. auto.
  - exists s'. split; [exact E|]. split; [intros i Hi; apply (U1 0 i); split; auto|]. intros a Ha. apply U2. intros i j []. auto.
Qed.
Theorem C54_vecsc : forall T (O : Ops T) al n alpha x xi (s : mem T), int_range n -> int_range xi ->
  (forall i, i < n -> al (sv_at x (xi + i)) = true) -> (forall i i', i < n -> i' < n -> sv_at x (xi + i) = sv_at x (xi + i') -> i = i') ->
  exists s', vecsc T al O n alpha x xi s = Ok s' /\ (forall i, i < n -> s' (sv_at x (xi + i)) = omul O alpha (s (sv_at x (xi + i)))) /\
    (forall a, (forall i, i < n -> a <> sv_at x (xi + i)) -> s' a = s a).
Proof.
  intros T O al n alpha x xi s R1 R2 AX DX. unfold vecsc, lib_vecsc, int_loops. rewrite !int_of_range by auto. cbn [need].
  destruct (scan2_ok T al 1 n (fun _ i => sv_at x (xi + i)) (fun _ i s => v <- rd al s (sv_at x (xi + i)) ;; wr al s (sv_at x (xi + i)) (omul O alpha v))
     (fun _ i => omul O alpha (s (sv_at x (xi + i)))) s) as (s' & E & U1 & U2).
  - intros i j i' j' ? ? ? ? X. apply DX in X; auto. split; [lia|auto].
  - intros i j s1 Hi Hj [V1 V2]. rewrite rd_ok by auto. cbn [bind]. rewrite wr_ok by auto. do 3 f_equal. apply V2.
    intros i' j' Hb X. destruct Hb as [[]|[]]; [lia|]. apply DX in X; lia.
  - exists s'. split; [exact E|]. split; [intros i Hi; apply (U1 0 i); split; auto|]. intros a Ha. apply U2. intros i j []. auto.
Qed.

(** ** C55: blasfeo::DynamicMatrix *)
(** Construction from a column-major Blaze matrix gives a matrix of its size with its elements. *)
Theorem C55_construct : forall T al addr A (s : mem T), let m := bm_rows A in let n := bm_cols A in
  bm_order A = columnMajor -> int_range m -> int_range n -> int_range (bm_spacing A) ->
  allocated al m n (bm_at A) -> allocated al m n addr -> distinct m n addr -> separate m n (bm_at A) m n addr ->
  exists s' B, dynamic_from T al addr A s = Ok (s', B) /\ sm_rows B = m /\ sm_cols B = n /\
    (forall i j, i < m -> j < n -> sm_at B i j = addr i j /\ s' (sm_at B i j) = s (bm_at A i j)) /\
    (forall a, (forall i j, i < m -> j < n -> a <> addr i j) -> s' a = s a).
Proof.
  intros T al addr A s m n O R1 R2 R3 AA AB DB SEP.
  destruct (C54_pack T al A (SMat m n addr) 0 0 s) as (s' & E & U1 & U2); auto; try (unfold int_range; lia).
  unfold pack in E. rewrite O in E. unfold dynamic_from. fold m n in E. fold m n. rewrite E. cbn [bind].
  exists s', (SMat m n addr). repeat split.
  - apply (U1 i j). split; auto.
  - intros a Ha. apply U2. intros i j []. apply Ha; auto.
Qed.
(** Assignment of a matrix of the same size copies the elements. *)
Theorem C55_assign : forall T al B A (s : mem T), let m := bm_rows A in let n := bm_cols A in
  bm_order A = columnMajor -> sm_rows B = m -> sm_cols B = n -> int_range m -> int_range n -> int_range (bm_spacing A) ->
  allocated al m n (bm_at A) -> allocated al m n (sm_at B) -> distinct m n (sm_at B) -> separate m n (bm_at A) m n (sm_at B) ->
  exists s', dynamic_assign T al B A s = Ok (s', B) /\ updated (block m n) (sm_at B) (fun i j => s (bm_at A i j)) s s'.
Proof.
  intros T al B A s m n O H1 H2 R1 R2 R3 AA AB DB SEP.
  destruct (C54_pack T al A B 0 0 s) as (s' & E & U); auto; try (unfold int_range; lia).
  unfold pack in E. rewrite O in E. unfold dynamic_assign, dynamic_resize. rewrite H1, H2. fold m n. rewrite !Nat.eqb_refl. cbn [negb orb bind].
  fold m n in E. rewrite E. cbn [bind]. exists s'. split; auto.
Qed.
(** resize to the present size does nothing. *)
Theorem C55_resize_same : forall B, dynamic_resize B (sm_rows B) (sm_cols B) = Ok B.
Proof. intros B. unfold dynamic_resize. rewrite !Nat.eqb_refl. reflexivity. Qed.
(** It is documented that resize re-allocates and that assignment resizes; both throw whenever the size is different. *)
Theorem C55_resize_refuted : forall T al B A (s : mem T) m n,
  (sm_rows B <> m \/ sm_cols B <> n -> dynamic_resize B m n = Throw InvalidArgument) /\
  (sm_rows B <> bm_rows A \/ sm_cols B <> bm_cols A -> dynamic_assign T al B A s = Throw InvalidArgument).
Proof.
  assert (K : forall B m n, sm_rows B <> m \/ sm_cols B <> n -> dynamic_resize B m n = Throw InvalidArgument).
  { intros B m n H. unfold dynamic_resize. destruct (Nat.eqb_spec m (sm_rows B)), (Nat.eqb_spec n (sm_cols B)); cbn; auto. destruct H; congruence. }
  intros T al B A s m n. split; [apply K|]. intros H. unfold dynamic_assign. rewrite K by auto. reflexivity.
Qed.
(** The member function unpack copies the whole matrix, resizing the destination. *)
Theorem C55_unpack : forall T al A B B' (s : mem T), let m := sm_rows A in let n := sm_cols A in
  bm_order B = columnMajor -> bm_resize B m n = Ok B' -> int_range m -> int_range n -> int_range (bm_spacing B') ->
  allocated al m n (sm_at A) -> allocated al m n (bm_at B') -> distinct m n (bm_at B') -> separate m n (sm_at A) m n (bm_at B') ->
  exists s', matrix_unpack T al A B s = Ok (s', B') /\ bm_rows B' = m /\ bm_cols B' = n /\
    updated (block m n) (bm_at B') (fun i j => s (sm_at A i j)) s s'.
Proof.
  intros T al A B B' s m n O RS R1 R2 R3 AA AB DB SEP.
  destruct (C54_unpack T al m n A 0 0 B B' s RS) as (s' & E & S1 & S2 & S3 & U); auto; try (unfold int_range; lia).
  unfold unpack in E. unfold matrix_unpack. fold m n. rewrite RS in *. cbn [bind] in *. rewrite S3, O in E. 
  exists s'. split; [exact E|]. auto.
Qed.
(** The default constructor of CustomMatrix does not compile. *)
Theorem C55_custom_default_refuted : custom_default = IllFormed.
Proof. reflexivity. Qed.

(** ** Examples: a 2-by-3 row-major matrix at 0 with spacing 4 and the window at (1, 2) of a 5-by-6 BLASFEO matrix at 100. *)
Definition ex_A : bmat := BMat rowMajor 2 3 0 4 None.
Definition ex_S : smat := SMat 5 6 (fun i j => 100 + 8 * j + i).
Definition ex_B : bmat := BMat columnMajor 1 1 200 1 (Some (fun m n => (300, m))).
Definition ex_B' : bmat := BMat columnMajor 2 3 300 2 (Some (fun m n => (300, m))).
Definition ex_mem : mem Z := fun a => Z.of_nat a.
Ltac small := unfold int_range; cbn; lia.
Example C54_ex_hyp : bm_resize ex_B 2 3 = Ok ex_B' /\ int_range 2 /\ int_range 3 /\ int_range 4 /\ int_range 1 /\
  allocated (fun a => a <? 1000) 2 3 (bm_at ex_A) /\ allocated (fun a => a <? 1000) 2 3 (window ex_S 1 2) /\ allocated (fun a => a <? 1000) 2 3 (bm_at ex_B') /\
  distinct 2 3 (window ex_S 1 2) /\ distinct 2 3 (bm_at ex_B') /\ separate 2 3 (bm_at ex_A) 2 3 (window ex_S 1 2) /\
  separate 2 3 (window ex_S 1 2) 2 3 (bm_at ex_B').
Proof.
  split; [reflexivity|]. repeat (split; [small|]).
  unfold allocated, distinct, separate, window, bm_at; cbn -[Nat.mul Nat.ltb].
  repeat split; intros; try (apply Nat.ltb_lt); lia.
Qed.
Example C54_ex : match pack Z (fun a => a <? 1000) ex_A ex_S 1 2 ex_mem with
  | Ok s => s (100 + 8 * 4 + 2) = 6%Z /\ match unpack Z (fun a => a <? 1000) 2 3 ex_S 1 2 ex_B s with
     | Ok (s, B) => bm_rows B = 2 /\ bm_cols B = 3 /\ map (fun a => s a) [300; 301; 302; 303; 304; 305] = [0; 4; 1; 5; 2; 6]%Z | _ => False end
  | _ => False end.
Proof. vm_compute. repeat split. Qed.
Example C54_ex_tran : match pack_v Z (fun a => a <? 1000) rowVector 3 10 ex_S 1 2 ex_mem with
  | Ok s => match unpack_tran Z (fun a => a <? 1000) 1 3 ex_S 1 2 ex_B s with
     | Ok (s, B) => bm_rows B = 3 /\ bm_cols B = 1 /\ map (fun a => s a) [300; 301; 302] = [10; 11; 12]%Z | _ => False end
  | _ => False end.
Proof. vm_compute. repeat split. Qed.
Example C55_ex : match dynamic_from Z (fun a => a <? 1000) (fun i j => 500 + 4 * j + i) ex_B' ex_mem with
  | Ok (s, B) => sm_rows B = 2 /\ s 504 = 302%Z /\ dynamic_assign Z (fun a => a <? 1000) B ex_B s = Throw InvalidArgument /\
      match matrix_unpack Z (fun a => a <? 1000) B ex_B s with Ok (s, B') => bm_cols B' = 3 | _ => False end
  | _ => False end.
Proof. vm_compute. repeat split. Qed.
