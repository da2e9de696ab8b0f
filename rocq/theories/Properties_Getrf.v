(** Properties_Getrf.v -- C36 (operation by operation) and C53: the blocked factorisation in any scalar arithmetic, and its rounding errors. *)
From Coq Require Import Reals Lra Lia Arith Bool List ZArith QArith Qcanon.
From Flocq Require Import IEEE754.BinarySingleNaN.
From Verif Require Import Base Base_Proofs Spec Instances Layout_Model Simd_Model Gemm_Model Arg_Proofs LU_Model LU_Theory LU_Proofs Properties_LU
  Round_Spec Float_Proofs RoundLU_Proofs Getrf_Spec GetrfOps_Proofs GetrfRound_Proofs Properties_Round.
Import ListNotations.
Local Open Scope nat_scope.

(* ------------------------------------------------------------------ C36: operation by operation *)
(** If getrf does not throw, then in any arithmetic every element of the result is the value [blocked_elem] (Getrf_Spec.v) of the
    row-interchanged input and the result itself, every pivot is non-zero and maximal, and nothing else is written. *)
Theorem C36_getrf_ops : forall SS cc T (O : Ops T) al A m p m' p', 0 < SS -> 0 < cc -> getrf_pre SS cc al A ->
  getrf_cm SS cc T O al A (m, p) = Ok (m', p') ->
  let M := g_rows A in let N := g_cols A in let F i j := m' (g_addr SS A i j) in
  let B := interchanged p' 0 (min M N) (fun i j => m (g_addr SS A i j)) in
  (forall i j, i < M -> j < N -> F i j = blocked_elem O (cc * SS) M F B i j) /\
  (forall l, l < min M N -> l <= p' l < M /\ good_pivot O (cc * SS) M F B l) /\
  (forall a, (forall i j, i < M -> j < N -> a <> g_addr SS A i j) -> m' a = m a) /\ (forall l, min M N <= l -> p' l = p l).
Proof.
  intros SS cc T O al A m p m' p' HSS Hcc [[P1 P2 P3 P4 P5] P6] E M N F B.
  destruct (getrf_cm_ops SS HSS cc Hcc T O al A P1 P2 P3 P6 P5 m p) as [(m1 & p1 & E1 & FR & PU & PB & EL & PV)|E1]; [|discriminate (eq_trans (eq_sym E1) E)].
  pose proof (eq_trans (eq_sym E1) E) as E2. injection E2 as -> ->. split; [exact EL|]. split; [intros l Hl; split; auto; apply PV; auto|]. split; auto.
  intros a Ha. apply FR. intros i j [Hi Hj]. auto.
Qed.

(* ------------------------------------------------------------------ C53: rounding errors of getrf *)
(** P*A = L*U up to (r/NB + 2 NB + 2) roundings, r = min M N: for large matrices fewer than the r roundings of the unblocked algorithm (C52). *)
Theorem C53_getrf : forall SS cc T (O : Ops T) val fin u eta al A m p m' p', rounded O val fin u eta -> 0 < SS -> 0 < cc -> getrf_pre SS cc al A ->
  getrf_cm SS cc T O al A (m, p) = Ok (m', p') ->
  let M := g_rows A in let N := g_cols A in let r := min M N in let F i j := m' (g_addr SS A i j) in
  (forall i j, i < M -> j < N -> fin (F i j) = true) ->
  let L := unit_lower rops (fun i j => val (F i j)) in let U := upper_trap rops (fun i j => val (F i j)) in
  let B := interchanged p' 0 r (fun i j => m (g_addr SS A i j)) in
  let NB := cc * SS in let g := r / NB + 2 * NB + 2 in
  (forall l, l < r -> l <= p' l < M) /\
  (forall i l, l < r -> l < i < M -> (Rabs (L i l) <= 1)%R) /\
  (forall i j, i < M -> j < N -> fin (B i j) = true /\
     (Rabs (val (B i j) - Rsum r (fun l => L i l * U l j)) <=
        downs u g * Rsum r (fun l => Rabs (L i l * U l j)) +
        (/ (1 - u)) ^ g * (eta * (4 * INR r + (if (j <? i)%nat then Rabs (val (F j j)) else 0))))%R).
Proof.
  intros SS cc T O val fin u eta al A m p m' p' RA HSS Hcc P E M N r F FF L U B NB g.
  destruct (C36_getrf_ops SS cc T O al A m p m' p' HSS Hcc P E) as (EL & PV & _ & _). fold M N r in EL, PV. fold B in EL, PV. fold F in EL, PV.
  assert (HNB : 0 < NB) by (unfold NB; apply Nat.mul_pos_pos; auto).
  split; [intros l Hl; apply PV; auto|]. split.
  - intros i l Hl Hi. unfold L, unit_lower. destruct (Nat.ltb_spec l i); [|lia].
    apply (blocked_multipliers O val fin u eta RA NB M N F B); auto. intros l' Hl'. apply PV. auto.
  - intros i j Hi Hj. apply (blocked_backward O val fin u eta RA NB M N F B); auto.
Qed.

(** The 3-by-3 matrix of C36_example with block size 2 and one remainder column, in double: no pivot vanishes and all elements are finite. *)
Definition r_m64 (a : nat) : b64 := d64 (nth a [1; 2; 4; 99; 3; 1; 2; 99; 5; 3; 8; 99]%Z 0%Z).
Example C53_example : exists m' p', getrf_cm 2 1 b64 b64ops (c_alloc 2 rA) (MArg (whole rA) false) (r_m64, fun _ => 7) = Ok (m', p') /\
  forall i j, i < 3 -> j < 3 -> is_finite (m' (g_addr 2 (MArg (whole rA) false) i j)) = true.
Proof.
  destruct (getrf_cm 2 1 b64 b64ops (c_alloc 2 rA) (MArg (whole rA) false) (r_m64, fun _ => 7)) as [[m' p']| | | |] eqn:E.
  - exists m', p'. split; auto.
    assert (X : match getrf_cm 2 1 b64 b64ops (c_alloc 2 rA) (MArg (whole rA) false) (r_m64, fun _ => 7) with
                | Ok (m', _) => forallb (fun i => forallb (fun j => is_finite (m' (g_addr 2 (MArg (whole rA) false) i j))) (seq 0 3)) (seq 0 3) | _ => false end = true) by (vm_compute; reflexivity).
    rewrite E in X. rewrite forallb_forall in X. intros i j Hi Hj. specialize (X i ltac:(apply in_seq; lia)). rewrite forallb_forall in X. apply X. apply in_seq. lia.
  - exfalso. assert (X : match getrf_cm 2 1 b64 b64ops (c_alloc 2 rA) (MArg (whole rA) false) (r_m64, fun _ => 7) with Ok _ => true | _ => false end = true) by (vm_compute; reflexivity). rewrite E in X. discriminate.
  - exfalso. assert (X : match getrf_cm 2 1 b64 b64ops (c_alloc 2 rA) (MArg (whole rA) false) (r_m64, fun _ => 7) with Ok _ => true | _ => false end = true) by (vm_compute; reflexivity). rewrite E in X. discriminate.
  - exfalso. assert (X : match getrf_cm 2 1 b64 b64ops (c_alloc 2 rA) (MArg (whole rA) false) (r_m64, fun _ => 7) with Ok _ => true | _ => false end = true) by (vm_compute; reflexivity). rewrite E in X. discriminate.
  - exfalso. assert (X : match getrf_cm 2 1 b64 b64ops (c_alloc 2 rA) (MArg (whole rA) false) (r_m64, fun _ => 7) with Ok _ => true | _ => false end = true) by (vm_compute; reflexivity). rewrite E in X. discriminate.
Qed.
(** The 5-by-5 matrix with block size 2: two blocked steps and a remainder.  Element (4,3) of L in exact arithmetic, from the formula. *)
Definition qA5 : container := Cont Dense false columnMajor 5 5 0.
Definition q_m5 (a : nat) : Qc := Q2Qc (inject_Z (Z.of_nat ((a * a * 7 + a) mod 13) + 1)).
Example C36_ops_example :
  match getrf_cm 2 1 Qc qops (c_alloc 2 qA5) (MArg (whole qA5) false) (q_m5, fun _ => 7) with
  | Ok (m', p') => let F i j := m' (c_addr 2 qA5 i j) in let B := interchanged p' 0 5 (fun i j => q_m5 (c_addr 2 qA5 i j)) in
      forallb (fun i => forallb (fun j => Qceqb (F i j) (blocked_elem qops 2 5 F B i j)) (seq 0 5)) (seq 0 5) | _ => false end = true.
Proof. vm_compute. reflexivity. Qed.
