(** Properties_Simd.v -- C09 masked SIMD access, C10 horizontal index of maximum. *)
From Coq Require Import Arith Lia List Bool PeanoNat ZArith.
From Verif Require Import Base Base_Proofs Spec Layout_Model Layout_Proofs Simd_Model Simd_Proofs Instances.
Import ListNotations.

(* ------------------------------------------------------------------ C09 *)
(** Only the selected lanes need allocated memory; the result is memory in selected lanes, zero elsewhere. *)
Theorem C09_masked_load : forall SS T (O : Ops T) al a mk m, 0 < SS ->
  (forall l, l < SS -> mk l = true -> al (a + l) = true) ->
  exists v v', simd_maskload SS T O al a mk m = Ok v /\ neon_maskload SS T O al a mk m = Ok v' /\
    forall l, l < SS -> v l = (if mk l then m (a + l) else o0 O) /\ v' l = (if mk l then m (a + l) else o0 O).
Proof.
  intros SS T O al a mk m HSS H. pose proof (simd_maskload_ok SS HSS T O al a mk m H) as E.
  pose proof (neon_maskload_eq SS HSS T O al a mk m) as N. rewrite E in N. destruct N as (v' & E' & Hv').
  eexists. exists v'. split; [exact E|]. split; [exact E'|]. intros l Hl. split; [reflexivity|apply Hv'; auto].
Qed.

(** Conversely a selected lane outside the allocation is undefined behaviour on both architectures. *)
Theorem C09_masked_load_faults : forall SS T (O : Ops T) al a mk m l, 0 < SS ->
  l < SS -> mk l = true -> al (a + l) = false ->
  simd_maskload SS T O al a mk m = UB /\ neon_maskload SS T O al a mk m = UB.
Proof.
  intros SS T O al a mk m l HSS Hl Hm Ha.
  assert (E : simd_maskload SS T O al a mk m = UB).
  { unfold simd_maskload. destruct (forallb (fun l => negb (mk l) || al (a + l)) (seq 0 SS)) eqn:F; auto.
    rewrite forallb_forall in F. specialize (F l ltac:(apply in_seq; lia)). rewrite Hm, Ha in F. discriminate. }
  split; auto. pose proof (neon_maskload_eq SS HSS T O al a mk m) as N. rewrite E in N. exact N.
Qed.

(** A masked store writes exactly the selected lanes. *)
Theorem C09_masked_store : forall SS T al a v mk (m : mem T), 0 < SS ->
  (forall l, l < SS -> mk l = true -> al (a + l) = true) ->
  exists m1 m2, simd_maskstore SS T al a v mk m = Ok m1 /\ neon_maskstore SS T al a v mk m = Ok m2 /\
    let lanes := fun l (_ : nat) => l < SS /\ mk l = true in
    updated lanes (fun l _ => a + l) (fun l _ => v l) m m1 /\ updated lanes (fun l _ => a + l) (fun l _ => v l) m m2.
Proof.
  intros SS T al a v mk m HSS H.
  destruct (simd_maskstore_effect SS HSS T al a v mk H m) as (m1 & E1 & P1).
  pose proof (neon_maskstore_eq SS HSS T al a v mk m) as N. rewrite E1 in N. destruct N as (m2 & E2 & P2).
  exists m1, m2. split; auto. split; auto.
  assert (U : updated (fun l (_ : nat) => l < SS /\ mk l = true) (fun l _ => a + l) (fun l _ => v l) m m1).
  { split.
    - intros l _ [Hl Hm]. rewrite P1. unfold app.
      rewrite (proj2 (Nat.leb_le _ _)), (proj2 (Nat.ltb_lt _ _)) by lia.
      replace (a + l - a) with l by lia. rewrite Hm. reflexivity.
    - intros x Hx. rewrite P1. unfold app.
      destruct (Nat.leb_spec a x), (Nat.ltb_spec x (a + SS)); simpl; auto.
      destruct (mk (x - a)) eqn:M; auto. exfalso. apply (Hx (x - a) 0); [split; auto; lia|lia]. }
  split; auto. destruct U as [U1 U2]. split.
  - intros l j Hl. rewrite P2. apply (U1 l j Hl).
  - intros x Hx. rewrite P2. apply U2. exact Hx.
Qed.

Example C09_example : let al := fun a => (10 <=? a) && (a <? 13) in let mk := idx_lt 3 in
  (forall l, l < 4 -> mk l = true -> al (10 + l) = true) /\ al 13 = false.
Proof.
  split; auto. intros l Hl Hm. unfold idx_lt in Hm. apply Z.ltb_lt in Hm.
  apply andb_true_intro. split; [apply Nat.leb_le|apply Nat.ltb_lt]; lia.
Qed.

(* ------------------------------------------------------------------ C10 *)
(** A comparison that is a strict weak order (true of floating-point < without NaN). *)
Definition weak_order {T} (lt : T -> T -> bool) : Prop :=
  (forall a b, lt a b = true -> lt b a = false) /\
  (forall a b c, lt a b = false -> lt b c = false -> lt a c = false).

(** Every lane of the result holds the value and the index of one source lane whose value is maximal. *)
Definition imax_result {T} (lt : T -> T -> bool) (n : nat) (v : nat -> T) (idx : nat -> Z) (r : (nat -> T) * (nat -> Z)) : Prop :=
  forall l, l < n -> exists k, k < n /\ fst r l = v k /\ snd r l = idx k /\ forall k', k' < n -> lt (v k) (v k') = false.

Section Imax.
Variable T : Type.
Variable O : Ops T.
Hypothesis HO : weak_order (oltb O).
Variables (n : nat) (v : nat -> T) (idx : nat -> Z).

Definition holds (S : nat -> list nat) (s : (nat -> T) * (nat -> Z)) : Prop :=
  forall l, l < n -> exists k, In k (S l) /\ fst s l = v k /\ snd s l = idx k /\ forall k', In k' (S l) -> oltb O (v k) (v k') = false.

Lemma holds_init : holds (fun l => [l]) (v, idx).
Proof.
  intros l Hl. exists l. cbn. repeat split; auto. intros k' [<-|[]].
  destruct (oltb O (v l) (v l)) eqn:E; auto. apply (proj1 HO) in E as E'. congruence.
Qed.

Lemma holds_step : forall (step : (nat -> T) * (nat -> Z) -> (nat -> T) * (nat -> Z)) perm S s,
  (forall l, (fst (step s) l = fst s l /\ snd (step s) l = snd s l /\ oltb O (fst s l) (fst s (perm l)) = false) \/
             (fst (step s) l = fst s (perm l) /\ snd (step s) l = snd s (perm l) /\ oltb O (fst s (perm l)) (fst s l) = false)) ->
  (forall l, l < n -> perm l < n) -> holds S s -> holds (fun l => S l ++ S (perm l)) (step s).
Proof.
  intros step perm S s Hs Hp H l Hl.
  destruct (H l Hl) as (k1 & A1 & B1 & C1 & D1). destruct (H (perm l) (Hp l Hl)) as (k2 & A2 & B2 & C2 & D2).
  destruct (Hs l) as [(E1 & E2 & E3)|(E1 & E2 & E3)]; rewrite E1, E2.
  - exists k1. repeat split; auto; [apply in_or_app; auto|]. intros k' Hk'. apply in_app_or in Hk'. destruct Hk' as [Hk'|Hk']; auto.
    apply (proj2 HO) with (v k2); auto. rewrite <- B1, <- B2. exact E3.
  - exists k2. repeat split; auto; [apply in_or_app; auto|]. intros k' Hk'. apply in_app_or in Hk'. destruct Hk' as [Hk'|Hk']; auto.
    apply (proj2 HO) with (v k1); auto. rewrite <- B1, <- B2. exact E3.
Qed.

Lemma holds_avx : forall perm S s, (forall l, l < n -> perm l < n) -> holds S s ->
  holds (fun l => S l ++ S (perm l)) (imax_step_avx T O perm s).
Proof.
  intros perm S s Hp H. apply (holds_step (imax_step_avx T O perm)); auto.
  intros l. unfold imax_step_avx, vec. cbn [fst snd]. destruct (oltb O (fst s l) (fst s (perm l))) eqn:E; [right|left]; cbv beta iota zeta; cbn [fst snd]; rewrite ?E; repeat split; auto.
  apply (proj1 HO). exact E.
Qed.
Lemma holds_neon : forall perm S s, (forall l, l < n -> perm l < n) -> holds S s ->
  holds (fun l => S l ++ S (perm l)) (imax_step_neon T O perm s).
Proof.
  intros perm S s Hp H. apply (holds_step (imax_step_neon T O perm)); auto.
  intros l. unfold imax_step_neon, vec. cbn [fst snd]. destruct (oltb O (fst s (perm l)) (fst s l)) eqn:E; [left|right]; cbv beta iota zeta; cbn [fst snd]; rewrite ?E; repeat split; auto.
  apply (proj1 HO). exact E.
Qed.

Lemma holds_all : forall S s,
  forallb (fun l => forallb (fun k => existsb (Nat.eqb k) (S l)) (seq 0 n) && forallb (fun k => k <? n) (S l)) (seq 0 n) = true ->
  holds S s -> imax_result (oltb O) n v idx s.
Proof.
  intros S s Hf H l Hl. destruct (H l Hl) as (k & A & B & C & D). rewrite forallb_forall in Hf.
  specialize (Hf l ltac:(apply in_seq; lia)). apply andb_prop in Hf. destruct Hf as [F1 F2].
  rewrite forallb_forall in F1, F2. exists k. split.
  - apply Nat.ltb_lt. apply F2. exact A.
  - repeat split; auto. intros k' Hk'. apply D. specialize (F1 k' ltac:(apply in_seq; lia)).
    apply existsb_exists in F1. destruct F1 as (x & Hx & E). apply Nat.eqb_eq in E. subst. auto.
Qed.
End Imax.

Lemma lanes_check : forall n (perm : nat -> nat), forallb (fun l => perm l <? n) (seq 0 n) = true -> forall l, l < n -> perm l < n.
Proof. intros n perm H l Hl. rewrite forallb_forall in H. apply Nat.ltb_lt. apply H. apply in_seq. lia. Qed.

Theorem C10_imax : forall T (O : Ops T), weak_order (oltb O) -> forall v idx,
  imax_result (oltb O) 8 v idx (imax_avx_float T O (v, idx)) /\
  imax_result (oltb O) 4 v idx (imax_avx_double T O (v, idx)) /\
  imax_result (oltb O) 4 v idx (imax_neon_float T O (v, idx)) /\
  imax_result (oltb O) 2 v idx (imax_neon_double T O (v, idx)).
Proof.
  intros T O HO v idx. unfold imax_avx_float, imax_avx_double, imax_neon_float, imax_neon_double.
  split; [|split; [|split]].
  - eapply holds_all; [|apply holds_avx; auto; [apply lanes_check; reflexivity|];
      apply holds_avx; auto; [apply lanes_check; reflexivity|]; apply holds_avx; auto; [apply lanes_check; reflexivity|];
      apply holds_init; auto]. vm_compute. reflexivity.
  - eapply holds_all; [|apply holds_avx; auto; [apply lanes_check; reflexivity|];
      apply holds_avx; auto; [apply lanes_check; reflexivity|]; apply holds_init; auto]. vm_compute. reflexivity.
  - eapply holds_all; [|apply holds_neon; auto; [apply lanes_check; reflexivity|];
      apply holds_neon; auto; [apply lanes_check; reflexivity|]; apply holds_init; auto]. vm_compute. reflexivity.
  - eapply holds_all; [|apply holds_neon; auto; [apply lanes_check; reflexivity|]; apply holds_init; auto]. vm_compute. reflexivity.
Qed.

(** The integers with their usual order satisfy the hypothesis; the lanes may report different indices on ties. *)
Example C10_example : weak_order (oltb zops) /\
  let r := imax_avx_double Z zops (fun l => nth l [3; 7; 7; 2]%Z 0%Z, fun l => Z.of_nat l) in
  map (fst r) (seq 0 4) = [7; 7; 7; 7]%Z /\ map (snd r) (seq 0 4) = [2; 1; 2; 1]%Z.
Proof.
  split; [|vm_compute; auto]. split; cbn; intros.
  - apply Z.ltb_lt in H. apply Z.ltb_ge. lia.
  - apply Z.ltb_ge in H, H0. apply Z.ltb_ge. lia.
Qed.

(** With NaN (an element comparing false with everything) the result need not be the maximum of the rest. *)
Theorem C10_nan_refuted : exists (lt : option Z -> option Z -> bool) (v : nat -> option Z),
  (forall x, lt None x = false /\ lt x None = false) /\
  let O := mkOps (option Z) None None None (fun a _ => a) (fun a _ => a) (fun a _ => a) (fun a _ => a)
             (fun a _ _ => a) (fun a _ _ => a) (fun a => a) (fun a => a) lt (fun _ _ => true) in
  fst (imax_avx_double (option Z) O (v, fun l => Z.of_nat l)) 1 = Some 1%Z /\ v 2 = Some 5%Z /\ lt (Some 1%Z) (Some 5%Z) = true.
Proof.
  exists (fun a b => match a, b with Some x, Some y => Z.ltb x y | _, _ => false end).
  exists (fun l => nth l [None; Some 1; Some 5; Some 0]%Z None). split; [intros [x|]; auto|]. vm_compute. auto.
Qed.
