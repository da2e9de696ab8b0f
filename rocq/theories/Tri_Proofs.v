(** Tri_Proofs.v -- substitution. *)
From Coq Require Import Arith Lia List Bool PeanoNat.
From Verif Require Import Base Base_Proofs Spec Algebra_Proofs Scan_Proofs Tri_Model.

(** Element (i, k) of the triangular matrix is read from the stored array. *)
Definition referenced (ul : uplo) (unit : bool) (i k : nat) : Prop :=
  (match ul with Lower => k < i | Upper => i < k end) \/ (k = i /\ unit = false).

Section Tri.
Variable T : Type.
Variable O : Ops T.

Lemma acc_sub_ok : forall al (m : mem T) lo hi a x acc, lo <= hi -> (forall k, lo <= k < hi -> al (a k) = true) -> (forall k, lo <= k < hi -> al (x k) = true) ->
  acc_sub T O al m lo hi a x acc = Ok (sub_chain O (hi - lo) (fun c => m (a (lo + c))) (fun c => m (x (lo + c))) acc).
Proof.
  intros al m lo hi a x acc Hl Ha Hx. unfold acc_sub.
  destruct (for_inv T (fun k r => r = sub_chain O (k - lo) (fun c => m (a (lo + c))) (fun c => m (x (lo + c))) acc) lo hi
    (fun k acc => u <- rd al m (a k) ;; v <- rd al m (x k) ;; Ok (osub O acc (omul O u v))) acc) as (r & E & ->); auto.
  - rewrite Nat.sub_diag. reflexivity.
  - intros k s Hk ->. rewrite !rd_ok by auto. cbn [bind]. eexists. split; [reflexivity|].
    replace (Datatypes.S k - lo) with (Datatypes.S (k - lo)) by lia. cbn [sub_chain]. replace (lo + (k - lo)) with k by lia. reflexivity.
Qed.

Definition quot (unit : bool) (x d : T) : T := if unit then x else odiv O x d.

Lemma trsm_elem_ok : forall al unit A b x lo hi i m, lo <= hi ->
  al (b i) = true -> al (x i) = true -> (forall k, lo <= k < hi -> al (A i k) = true) -> (forall k, lo <= k < hi -> al (x k) = true) ->
  (unit = false -> al (A i i) = true) ->
  trsm_elem T O al unit A b x lo hi i m =
    Ok (mupd m (x i) (quot unit (sub_chain O (hi - lo) (fun c => m (A i (lo + c))) (fun c => m (x (lo + c))) (m (b i))) (m (A i i)))).
Proof.
  intros al unit A b x lo hi i m Hl Hb Hx HA Hxk Hd. unfold trsm_elem. rewrite rd_ok by auto. cbn [bind].
  rewrite acc_sub_ok by auto. cbn [bind]. unfold quot. destruct unit.
  - apply wr_ok; auto.
  - rewrite rd_ok by auto. cbn [bind]. apply wr_ok; auto.
Qed.

(** Row i of the solution from the rows before it in the order of substitution. *)
Definition solved (ul : uplo) (unit : bool) (M : nat) (a : nat -> nat -> T) (b x : nat -> T) (i : nat) : Prop :=
  x i = quot unit (match ul with
                   | Lower => sub_chain O i (a i) x (b i)
                   | Upper => sub_chain O (M - (i + 1)) (fun c => a i (i + 1 + c)) (fun c => x (i + 1 + c)) (b i)
                   end) (a i i).

Lemma trsm_loops_ok : forall al ul unit (A B X : locations) M N m0,
  (forall i k, i < M -> k < M -> referenced ul unit i k -> al (A i k) = true) ->
  allocated al M N B -> allocated al M N X -> distinct M N X ->
  (forall i j i' k, i < M -> j < N -> i' < M -> k < M -> referenced ul unit i' k -> X i j <> A i' k) ->
  (forall i j i' j', i < M -> j < N -> i' < M -> j' < N -> X i j = B i' j' -> i = i' /\ j = j') ->
  exists m', for_ 0 N (fun j m =>
    match ul with
    | Lower => for_ 0 M (fun i m => trsm_elem T O al unit A (fun i => B i j) (fun i => X i j) 0 i i m) m
    | Upper => for_ 0 M (fun t m => let i := M - 1 - t in trsm_elem T O al unit A (fun i => B i j) (fun i => X i j) (i + 1) M i m) m
    end) m0 = Ok m' /\
    (forall i j, i < M -> j < N -> solved ul unit M (fun i k => m0 (A i k)) (fun i => m0 (B i j)) (fun i => m' (X i j)) i) /\
    (forall a, (forall i j, i < M -> j < N -> a <> X i j) -> m' a = m0 a).
Proof.
  intros al ul unit A B X M N m0 RA RB RX DX SA SB. destruct ul.
  - destruct (scan_lex T N M (fun o t => X t o) (fun j i m => trsm_elem T O al unit A (fun i => B i j) (fun i => X i j) 0 i i m)
      (fun j i m => quot unit (sub_chain O (i - 0) (fun c => m (A i (0 + c))) (fun c => m (X (0 + c) j)) (m (B i j))) (m (A i i))) m0)
      as (m' & E & V & F).
    + intros o t o' t' Ho Ht Ho' Ht' H. apply DX in H; lia.
    + intros j i m Hj Hi. apply trsm_elem_ok; try (intros; apply RX || apply RB; lia); try lia.
      * intros k Hk. apply RA; try lia. left. lia.
      * intros ->. apply RA; auto. right. auto.
    + exists m'. split; [exact E|]. split.
      * intros i j Hi Hj. destruct (V j i Hj Hi) as (mp & E1 & E2 & E3). unfold solved. rewrite E1. rewrite Nat.sub_0_r.
        assert (Q : sub_chain O i (fun c => mp (A i (0 + c))) (fun c => mp (X (0 + c) j)) (mp (B i j)) =
                    sub_chain O i (fun k => m0 (A i k)) (fun k => m' (X k j)) (m0 (B i j))).
        { rewrite (E3 (B i j)).
          - apply sub_chain_ext; intros k Hk; cbn.
            + apply E3. intros o t B'. apply not_eq_sym. apply SA; unfold before in B'; try lia. left. lia.
            + apply E2. right. lia.
          - intros o t B' Q. symmetry in Q. apply SB in Q; unfold before in B'; lia. }
        rewrite Q. destruct unit; cbn [quot]; auto. f_equal. apply E3. intros o t B'. apply not_eq_sym.
        apply SA; unfold before in B'; try lia. right. auto.
      * intros a Ha. apply F. intros o t Ho Ht. apply Ha; auto.
  - destruct (scan_lex T N M (fun o t => X (M - 1 - t) o) (fun j t m => let i := M - 1 - t in trsm_elem T O al unit A (fun i => B i j) (fun i => X i j) (i + 1) M i m)
      (fun j t m => let i := M - 1 - t in
         quot unit (sub_chain O (M - (i + 1)) (fun c => m (A i (i + 1 + c))) (fun c => m (X (i + 1 + c) j)) (m (B i j))) (m (A i i))) m0)
      as (m' & E & V & F).
    + intros o t o' t' Ho Ht Ho' Ht' H. apply DX in H; lia.
    + intros j t m Hj Ht. cbv zeta. set (i := M - 1 - t). apply trsm_elem_ok; try (intros; apply RX || apply RB; unfold i; lia); try (unfold i; lia).
      * intros k Hk. apply RA; try (unfold i in *; lia). left. lia.
      * intros ->. apply RA; try (unfold i; lia). right. auto.
    + exists m'. split; [exact E|]. split.
      * intros i j Hi Hj. destruct (V j (M - 1 - i) Hj ltac:(lia)) as (mp & E1 & E2 & E3). unfold solved.
        cbv zeta in E1. replace (M - 1 - (M - 1 - i)) with i in * by lia. rewrite E1.
        assert (Q : sub_chain O (M - (i + 1)) (fun c => mp (A i (i + 1 + c))) (fun c => mp (X (i + 1 + c) j)) (mp (B i j)) =
                    sub_chain O (M - (i + 1)) (fun c => m0 (A i (i + 1 + c))) (fun c => m' (X (i + 1 + c) j)) (m0 (B i j))).
        { rewrite (E3 (B i j)).
          - apply sub_chain_ext; intros k Hk; cbn.
            + apply E3. intros o t B'. apply not_eq_sym. apply SA; unfold before in B'; try lia. left. lia.
            + pose proof (E2 j (M - 1 - (i + 1 + k))) as E2'. replace (M - 1 - (M - 1 - (i + 1 + k))) with (i + 1 + k) in E2' by lia.
              apply E2'. right. lia.
          - intros o t B' Q. symmetry in Q. apply SB in Q; unfold before in B'; lia. }
        rewrite Q. destruct unit; cbn [quot]; auto. f_equal. apply E3. intros o t B'. apply not_eq_sym.
        apply SA; unfold before in B'; try lia. right. auto.
      * intros a Ha. apply F. intros o t Ho Ht. apply Ha; lia.
Qed.
End Tri.
