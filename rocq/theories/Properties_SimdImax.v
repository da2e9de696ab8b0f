(** Properties_SimdImax.v -- C10: the element-wise maximum with indices. *)
From Coq Require Import Arith Lia List Bool PeanoNat ZArith.
From Verif Require Import Base Instances Simd_Model SimdImax_Model Properties_Simd.
Import ListNotations.

(** imax(a, idxa, b, idxb) cannot be called with floating point values and integer indices. *)
Theorem C10_elementwise_imax_integer_indices_refuted : forall bytes F I (O : Ops F) ft it a idxa b idxb,
  In ft [Float32; Float64] -> In it [Int32; Int64] -> imax2 bytes F I O ft it a idxa b idxb = IllFormed.
Proof.
  intros bytes F I O ft it a idxa b idxb [<-|[<-|[]]] [<-|[<-|[]]]; unfold imax2; destruct (negb (_ =? _)); reflexivity.
Qed.
(** If the indices have the element type of the values it compiles, returns the maxima, but with the index of the smaller value wherever the two differ (documented: of the larger);
    where neither compares greater (equal values, NaN) it returns the second value with its own index. *)
Theorem C10_elementwise_imax_swapped_refuted : forall bytes F I (O : Ops F) t a (idxa : vec I) b idxb, (forall x y, oltb O x y = true -> oltb O y x = false) ->
  exists c idxc, imax2 bytes F I O t t a idxa b idxb = Ok (c, idxc) /\
    forall l, (oltb O (b l) (a l) = true -> c l = a l /\ idxc l = idxb l) /\ (oltb O (a l) (b l) = true -> c l = b l /\ idxc l = idxa l) /\
      (oltb O (b l) (a l) = false -> oltb O (a l) (b l) = false -> c l = b l /\ idxc l = idxb l).
Proof.
  intros bytes F I O t a idxa b idxb W. exists (vmax F O a b), (vblend I idxa idxb (vgt F O b a)). split.
  - unfold imax2. rewrite Nat.eqb_refl. destruct t; reflexivity.
  - intros l. unfold vmax, vblend, vgt. split; [|split]; intros H.
    + rewrite H, (W _ _ H). auto.
    + rewrite H, (W _ _ H). auto.
    + intros H'. rewrite H, H'. auto.
Qed.
Example C10_elementwise_example : weak_order (oltb zops) /\
  match imax2 32 Z Z zops Float64 Float64 (fun l => nth l [3; 7; 1; 5]%Z 0%Z) (fun l => Z.of_nat l) (fun l => nth l [4; 6; 1; 9]%Z 0%Z) (fun l => (10 + Z.of_nat l)%Z) with
  | Ok (c, i) => map c (seq 0 4) = [4; 7; 1; 9]%Z /\ map i (seq 0 4) = [0; 11; 12; 3]%Z | _ => False end.
Proof. split; [exact (proj1 C10_example)|vm_compute; auto]. Qed.
(** With a NaN (None) in the first vector of lane 0 and in the second of lane 1. *)
Example C10_elementwise_example_nan :
  let lt := fun a b : option Z => match a, b with Some x, Some y => Z.ltb x y | _, _ => false end in
  let O := mkOps (option Z) None None None (fun a _ => a) (fun a _ => a) (fun a _ => a) (fun a _ => a)
             (fun a _ _ => a) (fun a _ _ => a) (fun a => a) (fun a => a) lt (fun _ _ => true) in
  (forall x y, oltb O x y = true -> oltb O y x = false) /\
  match imax2 32 (option Z) nat O Float64 Float64 (fun l => nth l [None; Some 7; Some 3]%Z None) (fun l => l) (fun l => nth l [Some 4; None; Some 3]%Z None) (fun l => 10 + l) with
  | Ok (c, i) => map c (seq 0 3) = [Some 4; None; Some 3]%Z /\ map i (seq 0 3) = [10; 11; 12] | _ => False end.
Proof. split; [intros [x|] [y|]; cbn; auto; rewrite Z.ltb_lt, Z.ltb_ge; apply Z.lt_le_incl|vm_compute; auto]. Qed.
