(** Properties_Tile.v -- C15, C16: tile(). *)
From Coq Require Import Arith Lia List Bool PeanoNat.
From Verif Require Import Base Tile_Model Tile_Proofs.
Import ListNotations.

(** tile(traversal, m, n) as called by the library. *)
Definition tile_calls (SS : nat) (traversal : order) (m n : nat) : list call := tile SS TILE_STEP traversal m n.

(** Cell (i,j) lies in the rectangle handed to the functor. *)
Definition covers (c : call) (i j : nat) : bool :=
  (k_i c <=? i) && (i <? k_i c + k_m c) && (k_j c <=? j) && (j <? k_j c + k_nn c).

Lemma covers_in : forall c i j, covers c i j = true <-> in_call c i j.
Proof.
  intros. unfold covers, in_call. rewrite !andb_true_iff, !Nat.leb_le, !Nat.ltb_lt. lia.
Qed.

(** Every cell of the matrix is in exactly one rectangle, every cell outside in none. *)
Theorem C15_exact_cover : forall SS traversal m n i j, 0 < SS ->
  length (filter (fun c => covers c i j) (tile_calls SS traversal m n)) = if (i <? m) && (j <? n) then 1 else 0.
Proof.
  intros SS tr m n i j HSS. unfold tile_calls.
  destruct (tile_ok_disj_cover SS HSS TILE_STEP ltac:(unfold TILE_STEP; lia) tr m n) as (A & B & C).
  assert (D : length (filter (fun c => covers c i j) (tile SS TILE_STEP tr m n)) <= 1).
  { clear A C. induction B as [|c l Hc Hl IH]; simpl; auto.
    destruct (covers c i j) eqn:E; simpl; auto.
    assert (filter (fun c => covers c i j) l = []) as ->; auto.
    clear Hl IH. induction l as [|d l IHl]; simpl; auto. inversion Hc; subst.
    destruct (covers d i j) eqn:F; auto. exfalso. apply covers_in in E, F. apply (H1 i j); auto. }
  destruct (Nat.ltb_spec i m), (Nat.ltb_spec j n); cbn [andb].
  - destruct (C i j) as (c & Hc & Hin); auto.
    assert (X : In c (filter (fun c => covers c i j) (tile SS TILE_STEP tr m n))).
    { apply filter_In. split; auto. apply covers_in. auto. }
    destruct (filter _ _); [contradiction|]. simpl in *. lia.
  - destruct (filter _ _) as [|c l] eqn:F; auto. exfalso.
    assert (X : In c (c :: l)) by (simpl; auto). rewrite <- F in X. apply filter_In in X. destruct X as [X Y].
    apply covers_in in Y. apply A in X. unfold call_ok, in_call in *. lia.
  - destruct (filter _ _) as [|c l] eqn:F; auto. exfalso.
    assert (X : In c (c :: l)) by (simpl; auto). rewrite <- F in X. apply filter_In in X. destruct X as [X Y].
    apply covers_in in Y. apply A in X. unfold call_ok, in_call in *. lia.
  - destruct (filter _ _) as [|c l] eqn:F; auto. exfalso.
    assert (X : In c (c :: l)) by (simpl; auto). rewrite <- F in X. apply filter_In in X. destruct X as [X Y].
    apply covers_in in Y. apply A in X. unfold call_ok, in_call in *. lia.
Qed.

Example C15_example : length (tile_calls 4 rowMajor 13 6) = 4 /\ length (tile_calls 4 columnMajor 13 6) = 4 /\
  tile_calls 4 columnMajor 0 5 = [].
Proof. vm_compute. auto. Qed.

(** No rectangle is empty and none exceeds the matrix. *)
Theorem C15_inside : forall SS traversal m n c, 0 < SS -> In c (tile_calls SS traversal m n) ->
  0 < k_m c /\ 0 < k_nn c /\ k_i c + k_m c <= m /\ k_j c + k_nn c <= n.
Proof.
  intros SS tr m n c HSS Hc.
  destruct (tile_ok_disj_cover SS HSS TILE_STEP ltac:(unfold TILE_STEP; lia) tr m n) as (A & _ & _).
  specialize (A c Hc). unfold call_ok in A. lia.
Qed.

(** The kernel is 1..3 SIMD registers by 4 columns; the full functor is used exactly when the rectangle has the
    kernel's size and the partial one otherwise, never for a rectangle larger than the kernel; rows start at
    multiples of the SIMD size, columns at multiples of 4, and the kernel does not reach past the last SIMD block
    of the matrix. *)
Theorem C16_kernels : forall SS traversal m n c, 0 < SS -> In c (tile_calls SS traversal m n) ->
  (1 <= k_rm c <= 3) /\ k_n c = 4 /\
  k_m c <= k_rm c * SS /\ k_nn c <= k_n c /\
  (k_full c = true <-> k_m c = k_rm c * SS /\ k_nn c = k_n c) /\
  k_i c mod SS = 0 /\ k_j c mod 4 = 0 /\
  k_i c + k_rm c * SS < m + SS.
Proof.
  intros SS tr m n c HSS Hc.
  destruct (tile_ok_disj_cover SS HSS TILE_STEP ltac:(unfold TILE_STEP; lia) tr m n) as (A & _ & _).
  specialize (A c Hc). unfold call_ok in A.
  destruct A as (A1 & A2 & (q & A3) & (q' & A4) & A5 & A6 & A7 & A8 & A9 & A10 & A11). unfold TILE_STEP in *.
  repeat (split; [tauto || lia|]). split; [|split]; auto.
  - rewrite A3, Nat.mul_comm. apply Nat.mod_mul. lia.
  - rewrite A4, Nat.mul_comm. apply Nat.mod_mul. lia.
Qed.

(** simd/arch/Avx2.hpp registerCapacity 16, simd/arch/Neon64.hpp registerCapacity 32: the static_assert of
    RegisterMatrix::ger (RM * RN + RM + 1 <= registerCapacity) holds for every kernel of tile(). *)
Theorem C16_register_budget : forall SS traversal m n c, 0 < SS -> In c (tile_calls SS traversal m n) ->
  k_rm c * k_n c + k_rm c + 1 <= 16.
Proof.
  intros SS tr m n c HSS Hc. destruct (C16_kernels SS tr m n c HSS Hc) as (A & B & _). rewrite B. lia.
Qed.

Example C16_example : In (Call 3 4 0 4 12 2 false) (tile_calls 4 columnMajor 13 6) /\
  In (Call 1 4 12 0 1 4 false) (tile_calls 4 columnMajor 13 6) /\ In (Call 3 4 0 0 12 4 true) (tile_calls 4 columnMajor 13 6).
Proof. vm_compute. auto 10. Qed.
