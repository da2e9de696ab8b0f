(** Properties_RegGemm.v -- C64: matrix products of one register block (math/register_matrix/Gemm.hpp). *)
From Coq Require Import Arith Lia List Bool PeanoNat ZArith.
From Verif Require Import Base Base_Proofs Spec Instances Algebra_Proofs Layout_Model Layout_Proofs Simd_Model Simd_Proofs
  Reg_Model Reg_Proofs Reg_Proofs2 Vec_Proofs Gemm_Model Gemm_Proofs Properties_Reg.
Import ListNotations.

Section Kernels.
Variables (SS : nat) (HSS : 0 < SS) (T : Type) (O : Ops T).
Notation addr := (addr SS).
Notation at' := (reg_at SS T).

(** Operands: a and c column-major, a not starting inside a panel; b in any layout. *)
Definition left_ptr (p : mptr) : Prop := col_ptr SS p /\ panel_start SS p.

Lemma left_lane : forall p, left_ptr p -> lane_ok SS p.
Proof. intros p [_ H] K. auto. Qed.

Lemma acc_loop : forall al N RM K cj f (ff : T -> T) a b m r (step : nat -> regs T -> res (regs T)), left_ptr a -> mptr_wf SS b ->
  allocated al (RM * SS) K (addr a) -> (forall k j, k < K -> j < N -> cj j = true -> al (addr b k j) = true) ->
  (forall v l, f v l = ff (v l)) ->
  (forall k r, step k r = (ax <- load_col SS T O al RM (VMat columnVector (poff SS a 0 k)) f m ;;
                         ger_update SS T O al N RM cj ax (VMat rowVector (poff SS (punalign SS b) k 0)) m r)) ->
  exists r', for_ 0 K step r = Ok r' /\
    forall i j, i < RM * SS -> j < N -> at' r' i j =
      if cj j then fma_chain O K (fun k => ff (m (addr a i k))) (fun k => m (addr b k j)) (at' r i j) else at' r i j.
Proof.
  intros al N RM K cj f ff a b m r step La Wb Ha Hb Hf Hs. pose proof La as [[Wa Sa] _].
  destruct (ger_loop_ok SS HSS T O al N RM K cj f ff a (punalign SS b) m r step) as (r' & E & P & Q); auto using left_lane.
  - apply punalign_wf; auto.
  - cbn. discriminate.
  - intros k j Hk Hj C. rewrite addr_punalign by auto. auto.
  - exists r'. split; auto. intros i j Hi Hj. destruct (cj j) eqn:C; [rewrite P by auto|rewrite Q by auto; reflexivity].
    apply fma_chain_ext; intros; rewrite ?addr_punalign; auto.
Qed.

(** gemm(r, K, alpha, a, b): r += alpha * a * b, one multiplication of a(i,k) by alpha and one fused multiply-add per k, in increasing order. *)
Theorem C64_accumulate : forall al N RM K alpha a b m r, left_ptr a -> mptr_wf SS b -> allocated al (RM * SS) K (addr a) -> allocated al K N (addr b) ->
  exists r', reg_gemm SS T O al N RM K alpha a b m r = Ok r' /\
    forall i j, i < RM * SS -> j < N -> at' r' i j = fma_chain O K (fun k => omul O alpha (m (addr a i k))) (fun k => m (addr b k j)) (at' r i j).
Proof.
  intros al N RM K alpha a b m r La Wb Ha Hb.
  destruct (acc_loop al N RM K always (fun x => vmul T O (vbroadcast T alpha) x) (fun x => omul O alpha x) a b m r
    (fun k r => reg_ger_alpha SS T O al N RM alpha (VMat columnVector (poff SS a 0 k)) (VMat rowVector (poff SS (punalign SS b) k 0)) m r)) as (r' & E & P); auto.
  exists r'. split; [unfold reg_gemm; rewrite cm_only_ok by (destruct La as [[? ?] ?]; auto); exact E|]. intros i j Hi Hj. rewrite P by auto. reflexivity.
Qed.
(** gemm(r, K, alpha, a, b, md, nd): the same for the first nd columns, the others keep their value. *)
Theorem C64_accumulate_sized : forall al N RM K alpha a b md nd m r, left_ptr a -> mptr_wf SS b -> allocated al (RM * SS) K (addr a) ->
  allocated al K (min nd N) (addr b) ->
  exists r', reg_gemm_mn SS T O al N RM K alpha a b md nd m r = Ok r' /\
    forall i j, i < RM * SS -> j < N -> at' r' i j =
      if j <? nd then fma_chain O K (fun k => omul O alpha (m (addr a i k))) (fun k => m (addr b k j)) (at' r i j) else at' r i j.
Proof.
  intros al N RM K alpha a b md nd m r La Wb Ha Hb.
  destruct (acc_loop al N RM K (fun j => j <? nd) (fun x => vmul T O (vbroadcast T alpha) x) (fun x => omul O alpha x) a b m r
    (fun k r => reg_ger_alpha_mn SS T O al N RM alpha (VMat columnVector (poff SS a 0 k)) (VMat rowVector (poff SS (punalign SS b) k 0)) md nd m r)) as (r' & E & P); auto.
  { intros k j Hk Hj C. apply Nat.ltb_lt in C. apply Hb; auto. apply Nat.min_glb_lt; auto. }
  exists r'. split; [unfold reg_gemm_mn; rewrite cm_only_ok by (destruct La as [[? ?] ?]; auto); exact E|]. auto.
Qed.

(** gemm(ker, K, alpha, a, b, beta, c, d[, md, nd]): d = alpha a b + beta c. *)
Theorem C64_block : forall al N RM K alpha a b beta c d r m, left_ptr a -> mptr_wf SS b -> col_ptr SS c -> col_ptr SS d -> storable d ->
  allocated al (RM * SS) K (addr a) -> allocated al K N (addr b) -> allocated al (RM * SS) N (addr c) -> allocated al (RM * SS) N (addr d) -> distinct (RM * SS) N (addr d) ->
  exists m', kgemm SS T O al N RM K alpha a b beta c d r m = Ok m' /\
    updated (block (RM * SS) N) (addr d)
      (fun i j => ofma O beta (m (addr c i j)) (omul O (fma_chain O K (fun k => m (addr a i k)) (fun k => m (addr b k j)) (o0 O)) alpha)) m m'.
Proof. intros. destruct H as [[? ?] ?], H1, H2. apply kgemm_ok; auto. Qed.
Theorem C64_block_sized : forall al N RM K alpha a b beta c d md nd r m, left_ptr a -> mptr_wf SS b -> col_ptr SS c -> col_ptr SS d -> storable d ->
  md <= RM * SS -> nd <= N ->
  allocated al (RM * SS) K (addr a) -> allocated al K nd (addr b) -> allocated al (nextMultiple md SS) nd (addr c) -> allocated al md nd (addr d) -> distinct md nd (addr d) ->
  exists m', kgemm_mn SS T O al N RM K alpha a b beta c d md nd r m = Ok m' /\
    updated (block md nd) (addr d)
      (fun i j => ofma O beta (m (addr c i j)) (omul O (fma_chain O K (fun k => m (addr a i k)) (fun k => m (addr b k j)) (o0 O)) alpha)) m m'.
Proof. intros. destruct H as [[? ?] ?], H1, H2. apply kgemm_mn_ok; auto. Qed.

(** gemm(ker, K, a, b, c, d): d = c + a b, K fused multiply-adds starting from c. *)
Theorem C64_add : forall al N RM K a b c d r m, left_ptr a -> mptr_wf SS b -> col_ptr SS c -> col_ptr SS d -> storable d ->
  allocated al (RM * SS) K (addr a) -> allocated al K N (addr b) -> allocated al (RM * SS) N (addr c) -> allocated al (RM * SS) N (addr d) -> distinct (RM * SS) N (addr d) ->
  exists m', kgemm_c SS T O al N RM K a b c d r m = Ok m' /\
    updated (block (RM * SS) N) (addr d) (fun i j => fma_chain O K (fun k => m (addr a i k)) (fun k => m (addr b k j)) (m (addr c i j))) m m'.
Proof.
  intros al N RM K a b c d r m La Wb [Wc Sc] [Wd Sd] Hst Ra Rb Rc Rd Hd. pose proof La as [[Wa Sa] _].
  unfold kgemm_c. rewrite Sa, Sc, Sd. cbn [order_eqb andb negb].
  destruct (reg_load_ok SS HSS T O al N RM c m r Wc Sc Rc) as (r1 & E1 & P1). rewrite E1. cbn [bind].
  match goal with |- context [for_ 0 K ?f r1] => destruct (acc_loop al N RM K always (fun x => x) (fun x => x) a b m r1 f) as (r2 & E2 & P2); auto end.
  rewrite E2. cbn [bind].
  destruct (reg_store_region SS HSS T al N RM d r2 Wd Sd Hst Rd) as (W & E & R).
  destruct (region_writes T _ W _ _ _ E R) with (m := m) as (m' & Em & U1 & U2).
  { intros i j i' j' [] [] X. apply Hd; auto. }
  exists m'. split; [rewrite Em; reflexivity|]. split; auto. intros i j [Hi Hj]. rewrite U1 by auto. rewrite P2, P1 by auto. reflexivity.
Qed.
(** gemm(ker, K, a, b, c, d, md, nd): only the leading md x nd block of d is written; but c is read as a full register block. *)
Theorem C64_add_sized : forall al N RM K a b c d md nd r m, left_ptr a -> mptr_wf SS b -> col_ptr SS c -> col_ptr SS d -> storable d ->
  md <= RM * SS -> nd <= N ->
  allocated al (RM * SS) K (addr a) -> allocated al K nd (addr b) -> allocated al (RM * SS) N (addr c) -> allocated al md nd (addr d) -> distinct md nd (addr d) ->
  exists m', kgemm_c_mn SS T O al N RM K a b c d md nd r m = Ok m' /\
    updated (block md nd) (addr d) (fun i j => fma_chain O K (fun k => m (addr a i k)) (fun k => m (addr b k j)) (m (addr c i j))) m m'.
Proof.
  intros al N RM K a b c d md nd r m La Wb [Wc Sc] [Wd Sd] Hst Hm Hn Ra Rb Rc Rd Hd. pose proof La as [[Wa Sa] _].
  unfold kgemm_c_mn. rewrite Sa, Sc, Sd. cbn [order_eqb andb negb].
  destruct (reg_load_ok SS HSS T O al N RM c m r Wc Sc Rc) as (r1 & E1 & P1). rewrite E1. cbn [bind].
  match goal with |- context [for_ 0 K ?f r1] => destruct (acc_loop al N RM K (fun j => j <? nd) (fun x => x) (fun x => x) a b m r1 f) as (r2 & E2 & P2); auto end.
  { intros k j Hk Hj C. apply Nat.ltb_lt in C. auto. }
  rewrite E2. cbn [bind].
  destruct (reg_store_mn_region SS HSS T al N RM d r2 Wd Sd Hst md nd Hm Hn Rd) as (W & E & R).
  destruct (region_writes T _ W _ _ _ E R) with (m := m) as (m' & Em & U1 & U2).
  { intros i j i' j' [] [] X. apply Hd; auto. }
  exists m'. split; [rewrite Em; reflexivity|]. split; auto. intros i j [Hi Hj]. rewrite U1 by (split; auto). rewrite P2, P1 by lia.
  rewrite (proj2 (Nat.ltb_lt j nd)) by auto. reflexivity.
Qed.
End Kernels.

(** A 4 x 1 matrix C is enough for md = 4, nd = 1 with the scaled kernel, but the unscaled one reads beyond it. *)
Theorem C64_add_sized_refuted :
  let p := MPtr Dense columnMajor true true in let al a := a <? 16 in let m a := Z.of_nat a in
  (exists m', kgemm_mn 4 Z zops al 2 1 1 1%Z (p 0 4) (p 4 4) 1%Z (p 12 4) (p 8 4) 4 1 (fun _ _ _ => 0%Z) m = Ok m') /\
  kgemm_c_mn 4 Z zops al 2 1 1 (p 0 4) (p 4 4) (p 12 4) (p 8 4) 4 1 (fun _ _ _ => 0%Z) m = UB.
Proof. split; [eexists|]; reflexivity. Qed.

Example C64_example : let p := MPtr Dense columnMajor true true in let al a := a <? 32 in let m a := Z.of_nat a in
  left_ptr 4 (p 0 4) /\ col_ptr 4 (p 24 4) /\ storable (p 24 4) /\ distinct 4 2 (addr 4 (p 24 4)) /\ allocated al 4 2 (addr 4 (p 24 4)) /\ mptr_wf 4 (MPtr Panel rowMajor true true 8 8) /\
  match kgemm_c 4 Z zops al 2 1 2 (p 0 4) (p 8 4) (p 16 4) (p 24 4) (fun _ _ _ => 0%Z) m with Ok m' => map m' [24; 25; 31] | _ => [] end = [52; 70; 150]%Z.
Proof.
  cbv zeta. split; [split; [split; [split; cbn; auto|reflexivity]|intros H; discriminate H]|]. split; [split; [split; cbn; auto|reflexivity]|]. split; [intros H; discriminate H|].
  split; [intros i j i' j' Hi Hj Hi' Hj'; cbn; nia|]. split; [intros i j Hi Hj; apply Nat.ltb_lt; cbn; nia|]. split; [split; cbn; auto|]. reflexivity.
Qed.

(* ------------------------------------------------------------------ C12: windows are not padded *)
(** A window is loaded without touching anything outside of it, also through an aligned pointer: only its own elements need be
    allocated, whatever follows it in the matrix.  [w] is a window of a matrix, a window of a window, or a checked panel window. *)
Theorem C12_window_load : forall SS T (O : Ops T) al c r cl mm nn w N RM beta q r0 (m : mem T), 0 < SS ->
  (w = submatrix true c r cl mm nn \/ (exists v r1 c1 r2 c2, v_cont v = c /\ v_i v = r1 /\ v_j v = c1 /\ r = r1 + r2 /\ cl = c1 + c2 /\ w = subsubmatrix true v r2 c2 mm nn) \/
   panel_submatrix SS c r cl mm nn = Ok w) ->
  c_so c = columnMajor -> c_base c mod SS = 0 -> r mod SS = 0 -> mm <= RM * SS -> nn <= N ->
  allocated al mm nn (fun i j => c_addr SS c (r + i) (cl + j)) ->
  col_ptr SS q -> storable q -> allocated al mm nn (addr SS q) -> distinct mm nn (addr SS q) ->
  exists m', (x <- reg_loadb_mn SS T O al N RM beta (v_ptr0 SS w) mm nn m r0 ;; reg_store_mn SS T al N RM q mm nn x m) = Ok m' /\
    updated (block mm nn) (addr SS q) (fun i j => omul O beta (m (c_addr SS c (r + i) (cl + j)))) m m'.
Proof.
  intros SS T O al c r cl mm nn w N RM beta q r0 m HSS HW SO HB HR Hm Hn HA Hq Hs HAq Hd.
  assert (EW : w = View c r cl mm nn true false).
  { destruct HW as [->|[(v & r1 & c1 & r2 & c2 & <- & <- & <- & -> & -> & ->)|E]]; [reflexivity|reflexivity|].
    unfold panel_submatrix in E. rewrite SO, HR in E. change (0 <? 0) with false in E. destruct ((c_rows c <? r + mm) || (c_cols c <? cl + nn)); [discriminate|]. congruence. }
  subst w. set (v := View c r cl mm nn true false). unfold v_ptr0. change (v_af v) with true.
  assert (W : mptr_wf SS (v_ptr SS true v 0 0)).
  { apply v_ptr_wf; auto. intros _. cbn [v v_cont v_i v_j]. rewrite SO, Nat.add_0_r. split; auto. apply Nat.mod_0_l. lia. }
  assert (AD : forall i j, addr SS (v_ptr SS true v 0 0) i j = c_addr SS c (r + i) (cl + j)).
  { intros i j. rewrite v_ptr_addr; auto. intros _ _. cbn [v v_cont v_i v_j]. rewrite SO. split; auto. apply Nat.mod_0_l. lia. }
  destruct (C11_load_store_sized SS HSS T O al N RM beta (v_ptr SS true v 0 0) q r0 mm nn m) as (m' & E & U1 & U2); auto.
  - split; auto.
  - intros _. destruct W as [_ W]. apply W. reflexivity.
  - cbn [v_ptr mp_af mp_pf v v_pf andb]. intros i j Hi Hj. rewrite AD. apply HA; auto.
  - exists m'. split; auto. split; auto. intros i j Hb. rewrite U1 by auto. rewrite AD. reflexivity.
Qed.
(** A 3-by-2 window at (4, 1) of an 8-by-4 matrix, of which nothing but the window is allocated. *)
Example C12_window_example : let c := Cont Dense false columnMajor 8 4 0 in let w := submatrix true c 4 1 3 2 in
  let al := fun a => match a - 12 with 0 | 1 | 2 | 8 | 9 | 10 => 12 <=? a | _ => 100 <=? a end in
  allocated al 3 2 (fun i j => c_addr 4 c (4 + i) (1 + j)) /\
  match (x <- reg_loadb_mn 4 Z zops al 2 1 1%Z (v_ptr0 4 w) 3 2 (fun a => Z.of_nat a) (fun _ _ _ => 0%Z) ;; reg_store_mn 4 Z al 2 1 (MPtr Dense columnMajor true true 100 4) 3 2 x (fun a => Z.of_nat a)) with
  | Ok m => map m [100; 101; 102; 103; 104; 105; 106; 107] = [12; 13; 14; 103; 20; 21; 22; 107]%Z | _ => False end.
Proof.
  cbv zeta. split.
  - intros i j Hi Hj. destruct i as [|[|[|]]], j as [|[|]]; try lia; reflexivity.
  - vm_compute. reflexivity.
Qed.
