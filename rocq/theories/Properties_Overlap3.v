(** Properties_Overlap3.v -- C81 for the element-by-element routines: the row-major ger and the reference gemm, axpy and ger. *)
From Coq Require Import Arith Lia List Bool PeanoNat ZArith.
From Verif Require Import Base Base_Proofs Spec Algebra_Proofs Instances Layout_Model Layout_Proofs Simd_Model Simd_Proofs
  Vec_Proofs Scan_Proofs Tile_Model Gemm_Model Arg_Proofs Ger_Model Ger_Proofs Properties_Ger Ref_Model Ref_Proofs Container_Model Properties_Ref
  Properties_Gemm Properties_Compose.
Import ListNotations.

(** The elements of the result are computed row by row; (i', j') is not later than (i, j). *)
Definition by_then (i j i' j' : nat) : Prop := i' < i \/ (i' = i /\ j' <= j).
(** An element of an M-by-N result D may be stored over ...
    ... an element of a matrix that is read element by element along with D, once that element has had its turn; *)
Definition over_elements (M N : nat) (D A : locations) : Prop :=
  forall i j i' j', i < M -> j < N -> i' < M -> j' < N -> D i j = A i' j' -> by_then i j i' j'.
(** ... an element of an M-by-K factor whose row i is read for the row i of D, after that row of D or with its last element; *)
Definition over_rows (M N K : nat) (D A : locations) : Prop :=
  forall i j i' k, i < M -> j < N -> i' < M -> k < K -> D i j = A i' k -> i' < i \/ (i' = i /\ j = N - 1).
(** ... an element of a K-by-N factor whose column j is read for the column j of D, in the last row, once that column has had its turn. *)
Definition over_columns (M N K : nat) (D B : locations) : Prop :=
  forall i j k j', i < M -> j < N -> k < K -> j' < N -> D i j = B k j' -> i = M - 1 /\ j' <= j.

(** The reference gemm then computes what it computes with the old contents of A, B and C. *)
Theorem C81_ref_gemm_overlap : forall SS T (O : Ops T) al alpha A B beta C D m, 0 < SS ->
  arg_ok SS A -> arg_ok SS B -> arg_ok SS C -> arg_ok SS D ->
  g_rows B = g_cols A -> g_rows C = g_rows A -> g_cols C = g_cols B -> g_rows D = g_rows A -> g_cols D = g_cols B ->
  let M := g_rows A in let N := g_cols B in let K := g_cols A in
  allocated al M K (g_addr SS A) -> allocated al K N (g_addr SS B) -> allocated al M N (g_addr SS C) -> allocated al M N (g_addr SS D) ->
  over_rows M N K (g_addr SS D) (g_addr SS A) -> over_columns M N K (g_addr SS D) (g_addr SS B) -> over_elements M N (g_addr SS D) (g_addr SS C) ->
  exists m', ref_gemm SS T O al alpha A B beta C D m = Ok m' /\
    updated (block M N) (g_addr SS D)
      (fun i j => oadd O (omul O alpha (add_chain O K (fun k => m (g_addr SS A i k)) (fun k => m (g_addr SS B k j)) (o0 O)))
                         (omul O beta (m (g_addr SS C i j)))) m m'.
Proof.
  intros SS T O al alpha A B beta C D m HSS hA hB hC hD zB zC1 zC2 zD1 zD2 M N K aA aB aC aD xA xB xC. unfold M, N, K in *.
  unfold ref_gemm. rewrite zB, zC1, zC2, zD1, zD2, !Nat.eqb_refl. cbn [negb orb]. unfold ref_gemm_ptr.
  eapply (scan2_ok T al _ _ (g_addr SS D)).
  - intros i j i' j' Hi Hj Hi' Hj'. apply (g_distinct SS HSS D hD); lia.
  - intros i j m1 Hi Hj [_ U].
    match goal with |- (v <- for_ 0 ?K ?f ?s ;; _) = _ =>
      destruct (for_inv T (fun k r => r = add_chain O k (fun k => m (g_addr SS A i k)) (fun k => m (g_addr SS B k j)) (o0 O)) 0 K f s) as (r & -> & ->) end; auto.
    + lia.
    + intros k r Hk ->. rewrite !deref_g by auto. rewrite !rd_ok by (apply aA || apply aB; lia). cbn [bind].
      eexists. split; [reflexivity|]. cbn [add_chain]. do 2 f_equal.
      * apply U. intros i' j' Hb Q. symmetry in Q. apply xA in Q; unfold before in *; lia.
      * apply U. intros i' j' Hb Q. symmetry in Q. apply xB in Q; unfold before in *; lia.
    + cbn [bind]. rewrite !deref_g, rd_ok by auto. cbn [bind]. rewrite wr_ok by auto. do 3 f_equal. f_equal.
      apply U. intros i' j' Hb Q. symmetry in Q. apply xC in Q; unfold before, by_then in *; lia.
Qed.
(** The reference axpy: C over A and over B. *)
Theorem C81_ref_axpy_overlap : forall SS T (O : Ops T) al alpha A B C m, 0 < SS -> arg_ok SS A -> arg_ok SS B -> arg_ok SS C ->
  g_rows A = g_rows C -> g_cols A = g_cols C -> g_rows B = g_rows C -> g_cols B = g_cols C ->
  let M := g_rows C in let N := g_cols C in
  allocated al M N (g_addr SS A) -> allocated al M N (g_addr SS B) -> allocated al M N (g_addr SS C) ->
  over_elements M N (g_addr SS C) (g_addr SS A) -> over_elements M N (g_addr SS C) (g_addr SS B) ->
  exists m', ref_axpy SS T O al alpha A B C m = Ok m' /\
    updated (block M N) (g_addr SS C) (fun i j => oadd O (omul O alpha (m (g_addr SS A i j))) (m (g_addr SS B i j))) m m'.
Proof.
  intros SS T O al alpha A B C m HSS hA hB hC z1 z2 z3 z4 M N aA aB aC xA xB. unfold M, N in *. unfold ref_axpy.
  rewrite z1, z2, z3, z4, !Nat.eqb_refl. cbn [negb orb]. unfold ref_axpy_ptr.
  eapply (scan2_ok T al _ _ (g_addr SS C)).
  - apply (g_distinct SS HSS C hC).
  - intros i j m1 Hi Hj [_ U]. rewrite !deref_g, !rd_ok by auto. cbn [bind]. rewrite wr_ok by auto. do 3 f_equal.
    + f_equal. apply U. intros i' j' Hb Q. symmetry in Q. apply xA in Q; unfold by_then, before in *; lia.
    + apply U. intros i' j' Hb Q. symmetry in Q. apply xB in Q; unfold by_then, before in *; lia.
Qed.
(** The row-major ger and the reference ger: B over A, over x (read row by row) and over y (read column by column). *)
Theorem C81_ger_row_major_overlap : forall SS T (O : Ops T) al alpha x y A B m, 0 < SS -> arg_ok SS B ->
  g_rows A = x_size x -> g_cols A = x_size y -> g_rows B = x_size x -> g_cols B = x_size y ->
  let M := x_size x in let N := x_size y in
  (forall i, i < M -> al (vaddr SS (x_ptr x) i) = true) -> (forall j, j < N -> al (vaddr SS (x_ptr y) j) = true) ->
  allocated al M N (g_addr SS A) -> allocated al M N (g_addr SS B) ->
  over_rows M N 1 (g_addr SS B) (fun i _ => vaddr SS (x_ptr x) i) -> over_columns M N 1 (g_addr SS B) (fun _ j => vaddr SS (x_ptr y) j) ->
  over_elements M N (g_addr SS B) (g_addr SS A) ->
  exists m', ger_rm SS T O al alpha x y A B m = Ok m' /\
    updated (block M N) (g_addr SS B)
      (fun i j => oadd O (m (g_addr SS A i j)) (omul O (omul O alpha (m (vaddr SS (x_ptr x) i))) (m (vaddr SS (x_ptr y) j)))) m m'.
Proof.
  intros SS T O al alpha x y A B m HSS hB zA1 zA2 zB1 zB2 M N ax ay aA aB xx xy xA. unfold M, N in *.
  unfold ger_rm. rewrite zA1, zA2, !Nat.eqb_refl. cbn [negb andb].
  apply (scan2_ok T al (x_size x) (x_size y) (g_addr SS B)
    (fun i j m => a <- rd al m (g_addr SS A i j) ;; xi <- rd al m (vaddr SS (x_ptr x) i) ;;
                  yj <- rd al m (vaddr SS (x_ptr y) j) ;; wr al m (g_addr SS B i j) (oadd O a (omul O (omul O alpha xi) yj)))).
  - intros i j i' j' Hi Hj Hi' Hj'. apply (g_distinct SS HSS B hB); lia.
  - intros i j m1 Hi Hj [_ U]. rewrite !rd_ok by auto. cbn [bind]. rewrite wr_ok by auto.
    rewrite (U (g_addr SS A i j)), (U (vaddr SS (x_ptr x) i)), (U (vaddr SS (x_ptr y) j)); auto.
    + intros i' j' Hb X. symmetry in X. apply (xy i' j' 0 j) in X; unfold before in *; lia.
    + intros i' j' Hb X. symmetry in X. apply (xx i' j' i 0) in X; unfold before in *; lia.
    + intros i' j' Hb X. symmetry in X. apply xA in X; unfold by_then, before in *; lia.
Qed.
Theorem C81_ref_ger_overlap : forall SS T (O : Ops T) al M N alpha x y A B m, 0 < SS ->
  vec_ok SS x -> vec_ok SS y -> mptr_wf SS A -> mptr_wf SS B ->
  (forall i, i < M -> al (vaddr SS x i) = true) -> (forall j, j < N -> al (vaddr SS y j) = true) ->
  allocated al M N (addr SS A) -> allocated al M N (addr SS B) -> distinct M N (addr SS B) ->
  over_rows M N 1 (addr SS B) (fun i _ => vaddr SS x i) -> over_columns M N 1 (addr SS B) (fun _ j => vaddr SS y j) -> over_elements M N (addr SS B) (addr SS A) ->
  exists m', ref_ger_ptr SS T O al M N alpha x y A B m = Ok m' /\
    updated (block M N) (addr SS B)
      (fun i j => oadd O (m (addr SS A i j)) (omul O (omul O alpha (m (vaddr SS x i))) (m (vaddr SS y j)))) m m'.
Proof.
  intros SS T O al M N alpha x y A B m HSS hx hy hA hB ax ay aA aB dB xx xy xA. unfold ref_ger_ptr.
  eapply (scan2_ok T al _ _ (addr SS B)); auto.
  intros i j m1 Hi Hj [_ U]. rewrite !deref_addr, !vderef_vaddr, !rd_ok by auto. cbn [bind]. rewrite wr_ok by auto.
  rewrite (U (addr SS A i j)), (U (vaddr SS x i)), (U (vaddr SS y j)); auto.
  - intros i' j' Hb Q. symmetry in Q. apply (xy i' j' 0 j) in Q; unfold before in *; lia.
  - intros i' j' Hb Q. symmetry in Q. apply (xx i' j' i 0) in Q; unfold before in *; lia.
  - intros i' j' Hb Q. symmetry in Q. apply xA in Q; unfold by_then, before in *; lia.
Qed.

(* ------------------------------------------------------------------ the conditions are needed *)
(** 3-by-3 column-major matrices: D over A with element (0,0) of D in a place of A that is needed again, and so on: over the first column as x (the
    first element is overwritten before it is used for the second column); over the first row as y; over A shifted by one element. *)
Definition q_B : marg := MArg (whole (Cont Dense false columnMajor 3 3 0)) false.
Definition q_val (x : nat) : Z := (1 + Z.of_nat x mod 7)%Z.
Theorem C81_row_major_overlap_refuted :
  (let x := VArg 3 (VStat 1 true 0) in let y := VArg 3 (VStat 1 false 64) in
     match ger_rm 4 Z zops (fun _ => true) 1%Z x y q_B q_B q_val with
     | Ok m' => m' (g_addr 4 q_B 0 1) <> (q_val 4 + q_val 0 * q_val 65)%Z | _ => False end) /\
  (let x := VArg 3 (VStat 1 true 64) in let y := VArg 3 (VStat 4 false 0) in
     match ger_rm 4 Z zops (fun _ => true) 1%Z x y q_B q_B q_val with
     | Ok m' => m' (g_addr 4 q_B 1 0) <> (q_val 1 + q_val 65 * q_val 0)%Z | _ => False end) /\
  (let A := MArg (submatrix false (Cont Dense false columnMajor 4 4 64) 0 0 3 3) false in let D := MArg (submatrix false (Cont Dense false columnMajor 4 4 64) 1 0 3 3) false in
     match ref_axpy 4 Z zops (fun _ => true) 2%Z A q_B D q_val with
     | Ok m' => m' (g_addr 4 D 1 0) <> (2 * q_val (g_addr 4 A 1 0) + q_val 1)%Z | _ => False end).
Proof. cbv zeta. repeat split; vm_compute; discriminate. Qed.

(* ------------------------------------------------------------------ concrete cases *)
(** The last column as x and the last row as y; a sum stored one row above one of its terms; a row vector times a matrix, stored over the matrix' last row. *)
Example C81_element_example :
  (let x := VArg 3 (VStat 1 true 8) in let y := VArg 3 (VStat 4 false 2) in
     over_rows 3 3 1 (g_addr 4 q_B) (fun i _ => vaddr 4 (x_ptr x) i) /\ over_columns 3 3 1 (g_addr 4 q_B) (fun _ j => vaddr 4 (x_ptr y) j) /\
     over_elements 3 3 (g_addr 4 q_B) (g_addr 4 q_B) /\
     match ger_rm 4 Z zops (fun _ => true) 2%Z x y q_B q_B q_val with
     | Ok m' => m' (g_addr 4 q_B 2 2) = (q_val 10 + 2 * q_val 10 * q_val 10)%Z /\ m' (g_addr 4 q_B 1 0) = (q_val 1 + 2 * q_val 9 * q_val 2)%Z | _ => False end) /\
  (let c := Cont Dense false columnMajor 4 4 64 in let A := MArg (submatrix false c 1 0 3 3) false in let D := MArg (submatrix false c 0 0 3 3) false in
     over_elements 3 3 (g_addr 4 D) (g_addr 4 A) /\ g_addr 4 D 1 2 = g_addr 4 A 0 2).
Proof.
  cbv zeta. split; [split; [|split; [|split; [|vm_compute; auto]]]|split; [|reflexivity]]; intros i j i' j' Hi Hj Hi' Hj' E; unfold by_then; cbn in *; lia.
Qed.
