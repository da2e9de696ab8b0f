(** Ref_Proofs.v -- the reference kernels. *)
From Coq Require Import Arith Lia List Bool PeanoNat.
From Verif Require Import Base Base_Proofs Spec Algebra_Proofs Layout_Model Layout_Proofs Simd_Model Simd_Proofs Vec_Proofs
  Gemm_Model Arg_Proofs Ger_Model Ger_Proofs Scan_Proofs Tri_Model Tri_Proofs Ref_Model.

Section Deref.
Variable SS : nat.
Hypothesis HSS : 0 < SS.
Lemma deref_addr : forall p i j, mptr_wf SS p -> deref SS p i j = addr SS p i j.
Proof.
  intros p i j W. unfold deref. rewrite <- (addr_00 SS HSS), addr_poff; auto using punalign_wf.
  - rewrite !Nat.add_0_r. apply addr_punalign; auto.
  - intros _ X. discriminate X.
Qed.
Lemma deref_g : forall a i j, arg_ok SS a -> deref SS (g_ptr SS a) i j = g_addr SS a i j.
Proof. intros a i j H. rewrite deref_addr by (apply g_ptr_wf; auto). apply g_ptr_addr; auto. Qed.
Lemma vderef_vaddr : forall v i, vec_ok SS v -> vderef SS v i = vaddr SS v i.
Proof.
  intros [[] p|s af b|s b] i Hv; unfold vderef; cbn [vec_ok vunalign voff vaddr] in *; try lia.
  - rewrite addr_poff, Nat.add_0_r, addr_punalign; auto using punalign_wf. intros _ X. discriminate X.
  - rewrite addr_poff, Nat.add_0_r, addr_punalign; auto using punalign_wf. intros _ X. discriminate X.
Qed.
End Deref.

Lemma for_ext : forall St lo hi (f g : nat -> St -> res St) s, (forall i s, lo <= i < hi -> f i s = g i s) -> for_ lo hi f s = for_ lo hi g s.
Proof. intros St lo hi f g s H. unfold for_. apply loop_ext. intros i s' Hi. apply H. lia. Qed.

Section Tri.
Variable T : Type.
Variable O : Ops T.

(* ------------------------------------------------------------------ trmm *)
Definition trmm_term (diag afirst : bool) (i : nat) (a b : nat -> T) (k : nat) : T :=
  if diag && (k =? i) then b k else if afirst then omul O (a k) (b k) else omul O (b k) (a k).
Definition tri_prod (ul : uplo) (diag afirst : bool) (M i : nat) (a b : nat -> T) : T :=
  match ul with
  | Upper => sum O (M - i) (fun c => trmm_term diag afirst i a b (i + c))
  | Lower => sum O (i + 1) (trmm_term diag afirst i a b)
  end.

Lemma trmm_acc_ok : forall al (m : mem T) diag afirst d lo hi a b, lo <= hi ->
  (forall k, lo <= k < hi -> al (b k) = true) -> (forall k, lo <= k < hi -> diag && (k =? d) = false -> al (a k) = true) ->
  trmm_acc T O al m diag afirst d lo hi a b = Ok (sum O (hi - lo) (fun c => trmm_term diag afirst d (fun k => m (a k)) (fun k => m (b k)) (lo + c))).
Proof.
  intros al m diag afirst d lo hi a b Hl Hb Ha. unfold trmm_acc.
  match goal with |- for_ _ _ ?f _ = _ =>
    destruct (for_inv T (fun k r => r = sum O (k - lo) (fun c => trmm_term diag afirst d (fun k => m (a k)) (fun k => m (b k)) (lo + c))) lo hi f (o0 O)) as (r & E & ->) end; auto.
  - rewrite Nat.sub_diag. reflexivity.
  - intros k s Hk ->. replace (Datatypes.S k - lo) with (Datatypes.S (k - lo)) by lia. cbn [sum]. replace (lo + (k - lo)) with k by lia.
    destruct (diag && (k =? d)) eqn:D.
    + rewrite rd_ok by auto. cbn [bind]. eexists. split; [reflexivity|]. f_equal. unfold trmm_term. rewrite D. reflexivity.
    + rewrite !rd_ok by auto. cbn [bind]. eexists. split; [reflexivity|]. f_equal. unfold trmm_term. rewrite D. destruct afirst; reflexivity.
Qed.

(** The loop nest of both sides: [A i k], [B k o], [C i o]; o is the outer index. *)
Definition gtrmm (al : alloc) (afirst : bool) (P M : nat) (alpha : T) (A : locations) (ul : uplo) (diag : bool) (B C : locations) (m : mem T) : res (mem T) :=
  let elem i j lo hi m :=
    v <- trmm_acc T O al m diag afirst i lo hi (fun k => A i k) (fun k => B k j) ;;
    wr al m (C i j) (omul O alpha v) in
  for_ 0 P (fun j m =>
    match ul with
    | Upper => for_ 0 M (fun i m => elem i j i M m) m
    | Lower => for_ 0 M (fun t m => let i := M - 1 - t in elem i j 0 (i + 1) m) m
    end) m.

Lemma gtrmm_ok : forall al afirst ul diag (A B C : locations) M P alpha m0,
  (forall i k, i < M -> k < M -> referenced ul diag i k -> al (A i k) = true) ->
  allocated al M P B -> allocated al M P C -> distinct M P C ->
  (forall i j i' k, i < M -> j < P -> i' < M -> k < M -> referenced ul diag i' k -> C i j <> A i' k) ->
  (forall i j i' j', i < M -> j < P -> i' < M -> j' < P -> C i j = B i' j' -> i = i' /\ j = j') ->
  exists m', gtrmm al afirst P M alpha A ul diag B C m0 = Ok m' /\
    updated (block M P) C (fun i j => omul O alpha (tri_prod ul diag afirst M i (fun k => m0 (A i k)) (fun k => m0 (B k j)))) m0 m'.
Proof.
  intros al afirst ul diag A B C M P alpha m0 RA RB RC DC SA SB. unfold gtrmm.
  assert (R : forall i k, match ul with Upper => i <= k | Lower => k <= i end -> diag && (k =? i) = false -> referenced ul diag i k).
  { intros i k H D. unfold referenced. destruct (Nat.eq_dec k i) as [->|N].
    - right. split; auto. rewrite Nat.eqb_refl, andb_true_r in D. exact D.
    - left. destruct ul; lia. }
  assert (TE : forall d (a b a' b' : nat -> T) k, (diag && (k =? d) = false -> a k = a' k) -> b k = b' k ->
     trmm_term diag afirst d a b k = trmm_term diag afirst d a' b' k).
  { intros d a b a' b' k E1 E2. unfold trmm_term. destruct (diag && (k =? d)); auto. rewrite E1, E2; auto. }
  destruct ul.
  - edestruct (scan2_ok T al P M (fun o t => C (M - 1 - t) o)) as (m' & E & U1 & U2); [| |exists m'; split; [exact E|]].
    + intros o t o' t' Ho Ht Ho' Ht' H. apply DC in H; lia.
    + intros j t m Hj Ht [U1 U2]. cbv zeta.
      assert (NB : forall k, k <= M - 1 - t -> m (B k j) = m0 (B k j)).
      { intros k Hk. apply U2. intros o t' Hb Q. symmetry in Q. apply SB in Q; unfold before in Hb; lia. }
      assert (NA : forall k, k <= M - 1 - t -> diag && (k =? M - 1 - t) = false -> m (A (M - 1 - t) k) = m0 (A (M - 1 - t) k)).
      { intros k Hk D. apply U2. intros o t' Hb. apply not_eq_sym. apply SA; unfold before in Hb; try lia. apply R; auto. }
      rewrite trmm_acc_ok.
      * cbn [bind]. rewrite wr_ok by (apply RC; lia). f_equal.
        match goal with |- mupd _ _ (omul _ _ ?x) = mupd _ _ (?e j t) => idtac end.
        instantiate (1 := fun j t => omul O alpha (tri_prod Lower diag afirst M (M - 1 - t) (fun k => m0 (A (M - 1 - t) k)) (fun k => m0 (B k j)))).
        cbn beta. f_equal. f_equal. unfold tri_prod. rewrite Nat.sub_0_r. apply sum_ext. intros k Hk. cbn [Nat.add]. apply TE.
        -- intros D. apply NA; auto; lia.
        -- apply NB. lia.
      * lia.
      * intros k Hk. apply RB; lia.
      * intros k Hk D. apply RA; try lia. apply R; auto. lia.
    + split.
      * intros i j [Hi Hj]. specialize (U1 j (M - 1 - i)). cbv beta in U1. replace (M - 1 - (M - 1 - i)) with i in U1 by lia. apply U1. split; lia.
      * intros a Ha. apply U2. intros o t [Ho Ht]. apply Ha. split; lia.
  - edestruct (scan2_ok T al P M (fun o t => C t o)) as (m' & E & U1 & U2); [| |exists m'; split; [exact E|]].
    + intros o t o' t' Ho Ht Ho' Ht' H. apply DC in H; lia.
    + intros j i m Hj Hi [U1 U2]. cbv zeta.
      assert (NB : forall k, i <= k < M -> m (B k j) = m0 (B k j)).
      { intros k Hk. apply U2. intros o t' Hb Q. symmetry in Q. apply SB in Q; unfold before in Hb; lia. }
      assert (NA : forall k, i <= k < M -> diag && (k =? i) = false -> m (A i k) = m0 (A i k)).
      { intros k Hk D. apply U2. intros o t' Hb. apply not_eq_sym. apply SA; unfold before in Hb; try lia. apply R; auto; lia. }
      rewrite trmm_acc_ok.
      * cbn [bind]. rewrite wr_ok by (apply RC; lia). f_equal.
        instantiate (1 := fun j i => omul O alpha (tri_prod Upper diag afirst M i (fun k => m0 (A i k)) (fun k => m0 (B k j)))).
        cbn beta. f_equal. f_equal. unfold tri_prod. apply sum_ext. intros k Hk. apply TE.
        -- intros D. apply NA; auto; lia.
        -- apply NB. lia.
      * lia.
      * intros k Hk. apply RB; lia.
      * intros k Hk D. apply RA; try lia. apply R; auto. lia.
    + split.
      * intros i j [Hi Hj]. apply (U1 j i). split; lia.
      * intros a Ha. apply U2. intros o t [Ho Ht]. apply Ha. split; lia.
Qed.

(* ------------------------------------------------------------------ trsm *)
Definition rsub (afirst : bool) (K : nat) (a x : nat -> T) (z : T) : T := if afirst then sub_chain O K a x z else sub_chain O K x a z.
Lemma rsub_ext : forall af K a x a' x' z, (forall k, k < K -> a k = a' k) -> (forall k, k < K -> x k = x' k) -> rsub af K a x z = rsub af K a' x' z.
Proof. intros [] K a x a' x' z H1 H2; apply sub_chain_ext; auto. Qed.

Lemma rtrsm_elem_ok : forall al afirst diag alpha b x d lo hi f g m, lo <= hi ->
  al b = true -> al x = true -> (forall k, lo <= k < hi -> al (f k) = true) -> (forall k, lo <= k < hi -> al (g k) = true) ->
  (diag = false -> al d = true) ->
  (if afirst : bool then rtrsm_elem T O al diag alpha b x d lo hi f g m else rtrsm_elem T O al diag alpha b x d lo hi g f m) =
    Ok (mupd m x (quot T O diag (rsub afirst (hi - lo) (fun c => m (f (lo + c))) (fun c => m (g (lo + c))) (omul O alpha (m b))) (m d))).
Proof.
  intros al afirst diag alpha b x d lo hi f g m Hl Hb Hx Hf Hg Hd.
  destruct afirst; unfold rtrsm_elem; rewrite rd_ok by auto; cbn [bind]; rewrite acc_sub_ok by auto; cbn [bind]; unfold quot, rsub;
    destruct diag; try (apply wr_ok; auto); rewrite rd_ok by auto; cbn [bind]; apply wr_ok; auto.
Qed.

(** Row i of the solution from the rows before it in the order of substitution. *)
Definition rsolved (afirst : bool) (ul : uplo) (diag : bool) (M : nat) (a : nat -> nat -> T) (b x : nat -> T) (i : nat) : Prop :=
  x i = quot T O diag (match ul with
                   | Lower => rsub afirst i (a i) x (b i)
                   | Upper => rsub afirst (M - (i + 1)) (fun c => a i (i + 1 + c)) (fun c => x (i + 1 + c)) (b i)
                   end) (a i i).

Definition gtrsm (al : alloc) (afirst : bool) (P M : nat) (A : locations) (ul : uplo) (diag : bool) (X : locations) (alpha : T) (B : locations) (m : mem T) : res (mem T) :=
  let elem i j lo hi m := if afirst
    then rtrsm_elem T O al diag alpha (B i j) (X i j) (A i i) lo hi (fun k => A i k) (fun k => X k j) m
    else rtrsm_elem T O al diag alpha (B i j) (X i j) (A i i) lo hi (fun k => X k j) (fun k => A i k) m in
  for_ 0 P (fun j m =>
    match ul with
    | Lower => for_ 0 M (fun i m => elem i j 0 i m) m
    | Upper => for_ 0 M (fun t m => let i := M - 1 - t in elem i j (i + 1) M m) m
    end) m.

Lemma gtrsm_ok : forall al afirst ul diag (A B X : locations) M N alpha m0,
  (forall i k, i < M -> k < M -> referenced ul diag i k -> al (A i k) = true) ->
  allocated al M N B -> allocated al M N X -> distinct M N X ->
  (forall i j i' k, i < M -> j < N -> i' < M -> k < M -> referenced ul diag i' k -> X i j <> A i' k) ->
  (forall i j i' j', i < M -> j < N -> i' < M -> j' < N -> X i j = B i' j' -> i = i' /\ j = j') ->
  exists m', gtrsm al afirst N M A ul diag X alpha B m0 = Ok m' /\
    (forall i j, i < M -> j < N -> rsolved afirst ul diag M (fun i k => m0 (A i k)) (fun i => omul O alpha (m0 (B i j))) (fun i => m' (X i j)) i) /\
    (forall a, (forall i j, i < M -> j < N -> a <> X i j) -> m' a = m0 a).
Proof.
  intros al afirst ul diag A B X M N alpha m0 RA RB RX DX SA SB. unfold gtrsm. destruct ul.
  - edestruct (scan_lex T N M (fun o t => X t o)) with
      (f := fun j i m => quot T O diag (rsub afirst (i - 0) (fun c => m (A i (0 + c))) (fun c => m (X (0 + c) j)) (omul O alpha (m (B i j)))) (m (A i i)))
      (m0 := m0)  as (m' & E & V & F).
    + intros o t o' t' Ho Ht Ho' Ht' H. apply DX in H; lia.
    + intros j i m Hj Hi.
      apply (rtrsm_elem_ok al afirst diag alpha (B i j) (X i j) (A i i) 0 i (fun k => A i k) (fun k => X k j) m); try lia;
        try (intros; apply RX || apply RB; lia).
      * intros k Hk. apply RA; try lia. left. lia.
      * intros ->. apply RA; auto. right. auto.
    + exists m'. split; [exact E|]. split.
      * intros i j Hi Hj. destruct (V j i Hj Hi) as (mp & E1 & E2 & E3). unfold rsolved. rewrite E1. rewrite Nat.sub_0_r.
        assert (Q : rsub afirst i (fun c => mp (A i (0 + c))) (fun c => mp (X (0 + c) j)) (omul O alpha (mp (B i j))) =
                    rsub afirst i (fun k => m0 (A i k)) (fun k => m' (X k j)) (omul O alpha (m0 (B i j)))).
        { rewrite (E3 (B i j)).
          - apply rsub_ext; intros k Hk; cbn.
            + apply E3. intros o t B'. apply not_eq_sym. apply SA; unfold before in B'; try lia. left. lia.
            + apply E2. right. lia.
          - intros o t B' Q. symmetry in Q. apply SB in Q; unfold before in B'; lia. }
        rewrite Q. destruct diag; cbn [quot]; auto. f_equal. apply E3. intros o t B'. apply not_eq_sym.
        apply SA; unfold before in B'; try lia. right. auto.
      * intros a Ha. apply F. intros o t Ho Ht. apply Ha; auto.
  - edestruct (scan_lex T N M (fun o t => X (M - 1 - t) o)) with
      (g := fun j t m => let i := M - 1 - t in if afirst
        then rtrsm_elem T O al diag alpha (B i j) (X i j) (A i i) (i + 1) M (fun k => A i k) (fun k => X k j) m
        else rtrsm_elem T O al diag alpha (B i j) (X i j) (A i i) (i + 1) M (fun k => X k j) (fun k => A i k) m)
      (f := fun j t m => let i := M - 1 - t in
         quot T O diag (rsub afirst (M - (i + 1)) (fun c => m (A i (i + 1 + c))) (fun c => m (X (i + 1 + c) j)) (omul O alpha (m (B i j)))) (m (A i i)))
      (m0 := m0) as (m' & E & V & F).
    + intros o t o' t' Ho Ht Ho' Ht' H. apply DX in H; lia.
    + intros j t m Hj Ht. cbv zeta. set (i := M - 1 - t).
      apply (rtrsm_elem_ok al afirst diag alpha (B i j) (X i j) (A i i) (i + 1) M (fun k => A i k) (fun k => X k j) m); try (unfold i; lia);
        try (intros; apply RX || apply RB; unfold i; lia).
      * intros k Hk. apply RA; try (unfold i in *; lia). left. lia.
      * intros ->. apply RA; try (unfold i; lia). right. auto.
    + exists m'. split; [exact E|]. split.
      * intros i j Hi Hj. destruct (V j (M - 1 - i) Hj ltac:(lia)) as (mp & E1 & E2 & E3). unfold rsolved.
        cbv zeta in E1. replace (M - 1 - (M - 1 - i)) with i in * by lia. rewrite E1.
        assert (Q : rsub afirst (M - (i + 1)) (fun c => mp (A i (i + 1 + c))) (fun c => mp (X (i + 1 + c) j)) (omul O alpha (mp (B i j))) =
                    rsub afirst (M - (i + 1)) (fun c => m0 (A i (i + 1 + c))) (fun c => m' (X (i + 1 + c) j)) (omul O alpha (m0 (B i j)))).
        { rewrite (E3 (B i j)).
          - apply rsub_ext; intros k Hk; cbn.
            + apply E3. intros o t B'. apply not_eq_sym. apply SA; unfold before in B'; try lia. left. lia.
            + pose proof (E2 j (M - 1 - (i + 1 + k))) as E2'. replace (M - 1 - (M - 1 - (i + 1 + k))) with (i + 1 + k) in E2' by lia.
              apply E2'. right. lia.
          - intros o t B' Q. symmetry in Q. apply SB in Q; unfold before in B'; lia. }
        rewrite Q. destruct diag; cbn [quot]; auto. f_equal. apply E3. intros o t B'. apply not_eq_sym.
        apply SA; unfold before in B'; try lia. right. auto.
      * intros a Ha. apply F. intros o t Ho Ht. apply Ha; lia.
Qed.
End Tri.
