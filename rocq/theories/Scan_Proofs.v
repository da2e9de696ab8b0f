(** Scan_Proofs.v -- scalar loop nests that write one element of a matrix per iteration. *)
From Coq Require Import Arith Lia List Bool PeanoNat.
From Verif Require Import Base Base_Proofs Spec.

Lemma wr_ok : forall T (al : alloc) (m : mem T) a v, al a = true -> wr al m a v = Ok (mupd m a v).
Proof. intros. unfold wr. rewrite H. reflexivity. Qed.
Lemma rd_ok : forall T (al : alloc) (m : mem T) a, al a = true -> rd al m a = Ok (m a).
Proof. intros. unfold rd. rewrite H. reflexivity. Qed.
Lemma mupd_eq : forall T (m : mem T) a v, mupd m a v a = v.
Proof. intros. unfold mupd. rewrite Nat.eqb_refl. reflexivity. Qed.
Lemma mupd_neq : forall T (m : mem T) a b v, b <> a -> mupd m a v b = m b.
Proof. intros. unfold mupd. apply Nat.eqb_neq in H. rewrite H. reflexivity. Qed.

(** Elements visited before (i, j) when rows are outer and columns inner. *)
Definition before (N i j i' j' : nat) : Prop := (i' < i /\ j' < N) \/ (i' = i /\ j' < j).

Section Scan.
Variable T : Type.

Lemma scan2_ok : forall (al : alloc) M N (ad : locations) (g : nat -> nat -> mem T -> res (mem T)) (e : nat -> nat -> T) m0,
  distinct M N ad ->
  (forall i j m, i < M -> j < N -> updated (before N i j) ad e m0 m -> g i j m = Ok (mupd m (ad i j) (e i j))) ->
  exists m', for_ 0 M (fun i m => for_ 0 N (fun j m => g i j m) m) m0 = Ok m' /\ updated (block M N) ad e m0 m'.
Proof.
  intros al M N ad g e m0 Hd Hg.
  destruct (for_inv (mem T) (fun i m => updated (before N i 0) ad e m0 m) 0 M
     (fun i m => for_ 0 N (fun j m => g i j m) m) m0) as (m' & E & U); try lia.
  - split; auto. intros i j [[]|[]]; lia.
  - intros i m Hi HU.
    destruct (for_inv (mem T) (fun j m => updated (before N i j) ad e m0 m) 0 N (fun j m => g i j m) m) as (m1 & E1 & U1); try lia; auto.
    + intros j m1 Hj HU1. rewrite Hg by (auto; lia). eexists. split; eauto. destruct HU1 as [V1 V2]. split.
      * intros i' j' Hb. destruct (Nat.eq_dec i' i) as [->|Ni]; [destruct (Nat.eq_dec j' j) as [->|Nj]|].
        -- apply mupd_eq.
        -- rewrite mupd_neq; [apply V1; destruct Hb as [[]|[]]; [left|right]; lia|].
           intros X. apply Hd in X; destruct Hb as [[]|[]]; lia.
        -- rewrite mupd_neq; [apply V1; destruct Hb as [[]|[]]; [left|right]; lia|].
           intros X. apply Hd in X; destruct Hb as [[]|[]]; lia.
      * intros a Ha. rewrite mupd_neq.
        -- apply V2. intros i' j' Hb. apply Ha. destruct Hb as [[]|[]]; [left|right]; lia.
        -- apply Ha. right; lia.
    + exists m1. split; auto. destruct U1 as [V1 V2]. split.
      * intros i' j' Hb. apply V1. destruct Hb as [[]|[]]; [|lia]. destruct (Nat.eq_dec i' i); [right|left]; lia.
      * intros a Ha. apply V2. intros i' j' Hb. apply Ha. destruct Hb as [[]|[]]; left; lia.
  - exists m'. split; auto. destruct U as [V1 V2]. split.
    + intros i j [Hi Hj]. apply V1. left; lia.
    + intros a Ha. apply V2. intros i' j' Hb. apply Ha. destruct Hb as [[]|[]]; split; lia.
Qed.

(** Loop nests in which each element may depend on the elements written before.  [f o t m] is what iteration (o, t) writes
    when it runs in memory [m].  In the final memory every element is [f] of a memory that agrees with the final one on the
    elements written earlier and with the initial one elsewhere. *)
Definition seen (Q : nat) (ad : locations) (f : nat -> nat -> mem T -> T) (m0 m' : mem T) (o t : nat) : Prop :=
  exists mp, m' (ad o t) = f o t mp /\
    (forall o' t', before Q o t o' t' -> mp (ad o' t') = m' (ad o' t')) /\
    (forall a, (forall o' t', before Q o t o' t' -> a <> ad o' t') -> mp a = m0 a).
Lemma scan_lex : forall P Q (ad : locations) (g : nat -> nat -> mem T -> res (mem T)) f m0,
  distinct P Q ad ->
  (forall o t m, o < P -> t < Q -> g o t m = Ok (mupd m (ad o t) (f o t m))) ->
  exists m', for_ 0 P (fun o m => for_ 0 Q (fun t m => g o t m) m) m0 = Ok m' /\
    (forall o t, o < P -> t < Q -> seen Q ad f m0 m' o t) /\
    (forall a, (forall o t, o < P -> t < Q -> a <> ad o t) -> m' a = m0 a).
Proof.
  intros P Q ad g f m0 Hd Hg.
  set (I := fun o t m => (forall o' t', before Q o t o' t' -> seen Q ad f m0 m o' t') /\
                         (forall a, (forall o' t', before Q o t o' t' -> a <> ad o' t') -> m a = m0 a)).
  assert (Hb : forall o t o' t', o < P -> t < Q -> before Q o t o' t' -> o' < P /\ t' < Q /\ ~ (o' = o /\ t' = t)).
  { intros o t o' t' Ho Ht [[]|[]]; lia. }
  destruct (for_inv (mem T) (fun o m => I o 0 m) 0 P (fun o m => for_ 0 Q (fun t m => g o t m) m) m0) as (m' & E & U); try lia.
  - split; auto. intros o t [[]|[]]; lia.
  - intros o m Ho HI.
    destruct (for_inv (mem T) (fun t m => I o t m) 0 Q (fun t m => g o t m) m) as (m1 & E1 & U1); try lia; auto.
    + intros t m1 Ht [V1 V2]. rewrite Hg by lia. eexists. split; eauto.
      assert (K : forall o' t', before Q o t o' t' -> mupd m1 (ad o t) (f o t m1) (ad o' t') = m1 (ad o' t')).
      { intros o' t' B. apply mupd_neq. destruct (Hb o t o' t') as (X & Y & Z); auto; try lia. intros W. apply Hd in W; lia. }
      split.
      * intros o' t' B. assert (B' : before Q o t o' t' \/ (o' = o /\ t' = t)) by (unfold before in *; lia).
        destruct B' as [B'|[-> ->]].
        -- destruct (V1 o' t' B') as (mp & A1 & A2 & A3). exists mp. rewrite K by auto. split; auto. split; auto.
           intros o2 t2 B2. rewrite K; auto. unfold before in *. lia.
        -- exists m1. rewrite mupd_eq. split; auto. split; auto. intros o' t' B'. rewrite K; auto.
      * intros a Ha. rewrite mupd_neq.
        -- apply V2. intros o' t' B. apply Ha. unfold before in *. lia.
        -- apply Ha. unfold before. lia.
    + exists m1. split; auto. destruct U1 as [V1 V2]. split.
      * intros o' t' B. apply V1. unfold before in *. lia.
      * intros a Ha. apply V2. intros o' t' B. apply Ha. unfold before in *. lia.
  - exists m'. split; auto. destruct U as [V1 V2]. split.
    + intros o t Ho Ht. apply V1. left. lia.
    + intros a Ha. apply V2. intros o t [[]|[]]; apply Ha; lia.
Qed.
End Scan.
