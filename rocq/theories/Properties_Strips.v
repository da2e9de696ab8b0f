(** Properties_Strips.v -- C61, C76: multiplying by a triangular matrix from the right strip by strip, also in place. *)
From Coq Require Import Arith Lia List Bool PeanoNat Permutation ZArith.
From Verif Require Import Base Base_Proofs Spec Footprint_Spec Threads_Spec Algebra_Proofs Instances Layout_Model Layout_Proofs Arg_Proofs Gemm_Model
  Container_Model Trmm_Model Trmm_Proofs Properties_Gemm Properties_Trmm Properties_DynReg Properties_Footprint Properties_Compose Properties_Threads Properties_Threads2.
Import ListNotations.

(** Rows s_r .. s_r + s_m - 1, as an aligned or unaligned window. *)
Record strip := Strip { s_af : bool; s_r : nat; s_m : nat }.
Definition strip_of (X : marg) (n : nat) (s : strip) : marg := arg_window (s_af s) X (s_r s) 0 (s_m s) n.
Definition in_strip (s : strip) (i : nat) : Prop := s_r s <= i < s_r s + s_m s.
(** The calls trmm(alpha, rows of B, A, rows of C), one after the other. *)
Fixpoint strips_in_order (SS cc : nat) T (O : Ops T) al alpha B A C (l : list strip) (m : mem T) : res (mem T) :=
  match l with
  | [] => Ok m
  | s :: l => m <- trmmR SS cc T O al alpha (strip_of B (g_cols B) s) A Lower false (strip_of C (g_cols B) s) m ;; strips_in_order SS cc T O al alpha B A C l m
  end.

Section Strips.
Variables (SS cc : nat) (T : Type) (O : Ops T) (al : alloc) (alpha : T) (B A C : marg).
Hypothesis HSS : 0 < SS. Hypothesis Hcc : 0 < cc.
Hypothesis HP : trmmR_pre SS cc al B A C.
Let M := g_rows B. Let N := g_cols B.
Definition s_pre (s : strip) : Prop := trmmR_pre SS cc al (strip_of B N s) A (strip_of C N s).
Definition s_action (s : strip) : @action T :=
  Action (trmmR SS cc T O al alpha (strip_of B N s) A Lower false (strip_of C N s))
    (fun x => cells (lower N N) (g_addr SS A) x \/ cells (fun i j => in_strip s i /\ j < N) (g_addr SS B) x)
    (cells (fun i j => in_strip s i /\ j < N) (g_addr SS C)) (cells (fun i j => in_strip s i /\ j < N) (g_addr SS C)).
Lemma s_val : forall s m, s_pre s -> exists m', a_op (s_action s) m = Ok m' /\
  updated (fun i j => in_strip s i /\ j < N) (g_addr SS C)
    (fun i j => fma_chain O (N - j) (fun k => omul O alpha (m (g_addr SS B i (j + k)))) (fun k => m (g_addr SS A (j + k) j)) (o0 O)) m m'.
Proof.
  intros [af r mm] m P. unfold s_pre, strip_of in P. cbn [s_af s_r s_m] in P.
  destruct (C26_trmm_right_ops SS cc T O al alpha _ A _ m HSS Hcc P) as (m' & E & V & F). exists m'. split; [exact E|].
  rewrite arg_window_rows, arg_window_cols in V, F. unfold in_strip. cbn [s_r s_m]. split.
  - intros i j [Hi Hj]. specialize (V (i - r) j). rewrite !arg_window_addr in V.
    replace (r + (i - r)) with i in V by lia. cbn [Nat.add] in V. rewrite V by (unfold block; lia).
    apply fma_chain_ext; intros k Hk; auto. rewrite arg_window_addr. do 3 f_equal; lia.
  - intros a Ha. apply F. intros i j [Hi Hj]. rewrite arg_window_addr. apply Ha. lia.
Qed.
Lemma s_confined : forall s, s_pre s -> confined (s_action s).
Proof.
  intros s P. eapply confined_updated; [intros m; apply (s_val s m P)|]. cbn beta. intros m1 m2 H i j [Hi Hj].
  apply fma_chain_ext; intros k Hk.
  - f_equal. apply H. right. exists i, (j + k). repeat split; auto; try apply Hi. lia.
  - apply H. left. exists (j + k), j. unfold lower. split; auto. lia.
Qed.
Lemma s_independent : forall s s', s_r s + s_m s <= M -> s_r s' + s_m s' <= M -> (forall i, in_strip s i -> ~ in_strip s' i) -> independent (s_action s) (s_action s').
Proof.
  pose proof (qp_szA _ _ _ _ _ _ HP) as [zA1 zA2]. pose proof (qp_szC _ _ _ _ _ _ HP) as [zC1 zC2].
  assert (H : forall s s', s_r s + s_m s <= M -> s_r s' + s_m s' <= M -> (forall i, in_strip s i -> ~ in_strip s' i) ->
    forall x, a_writes (s_action s) x -> ~ a_reads (s_action s') x /\ ~ a_writes (s_action s') x).
  { intros s s' B1 B2 Dj x (i & j & [Hi Hj] & ->). cbn [s_action a_reads a_writes].
    assert (DC : forall i' j', in_strip s' i' -> j' < N -> g_addr SS C i j = g_addr SS C i' j' -> False).
    { intros i' j' Hi' Hj' E. pose proof Hi as Hi0. pose proof Hi' as Hi0'. unfold in_strip in Hi0, Hi0'.
      apply (g_distinct SS HSS C (qp_C _ _ _ _ _ _ HP)) in E; rewrite ?zC1, ?zC2; fold M N; try lia.
      destruct E as [<- _]. apply (Dj i); auto. }
    split.
    - intros [(k & j' & (Hk1 & Hk2 & Hk3) & E)|(i' & j' & [Hi' Hj'] & E)].
      + unfold in_strip in Hi. apply (qp_sepA _ _ _ _ _ _ HP i j k j') in E; auto; fold M N; lia.
      + destruct (qp_sepB _ _ _ _ _ _ HP) as [X|X].
        * unfold in_strip in Hi, Hi'. apply (X i j i' j') in E; auto; fold M N; lia.
        * apply (DC i' j'); auto. rewrite E. unfold in_strip in Hi'. apply X; fold M N; lia.
    - intros (i' & j' & [Hi' Hj'] & E). apply (DC i' j'); auto. }
  intros s s' B1 B2 Dj x. split; apply H; auto. intros i H1 H2. apply (Dj i); auto.
Qed.

Lemma strips_op : forall l m, in_order (map s_action l) m = strips_in_order SS cc T O al alpha B A C l m.
Proof.
  induction l as [|s l IH]; intros m; cbn [map in_order strips_in_order]; auto. cbn [s_action a_op]. fold N.
  destruct (trmmR _ _ _ _ _ _ _ _ _ _ _ m); cbn [bind]; auto.
Qed.
Lemma strips_divide : forall l, (forall s, In s l -> s_pre s /\ s_r s + s_m s <= M) -> ForallOrdPairs (fun s s' => forall i, in_strip s i -> ~ in_strip s' i) l ->
  divides_into (strips_in_order SS cc T O al alpha B A C l) s_action l.
Proof.
  intros l HW HD. split; [|split; [|split]].
  - rewrite Forall_map, Forall_forall. intros s Hs. apply s_confined. apply HW; auto.
  - apply ordpairs_map. eapply ordpairs_impl; [|exact HD]. intros s s' Hs Hs' Dj. cbn beta in *. destruct (HW s Hs), (HW s' Hs'). apply s_independent; auto.
  - intros s Hs x. cbn [s_action a_result a_writes]. destruct (block_dec (s_m s) N (fun i j => g_addr SS C (s_r s + i) j) x) as [(i & j & Hi & Hj & ->)|Hn].
    + left. exists (s_r s + i), j. unfold in_strip. repeat split; auto; lia.
    + right. intros (i & j & [Hi Hj] & E). unfold in_strip in Hi. apply (Hn (i - s_r s) j); auto; [lia|]. replace (s_r s + (i - s_r s)) with i by lia. exact E.
  - intros m. symmetry. apply strips_op.
Qed.

Lemma trmm_strips : forall (l : list strip) m,
  (forall s, In s l -> s_pre s /\ s_r s + s_m s <= M) -> ForallOrdPairs (fun s s' => forall i, in_strip s i -> ~ in_strip s' i) l ->
  (forall i, i < M -> exists s, In s l /\ in_strip s i) ->
  exists m1 m2, trmmR SS cc T O al alpha B A Lower false C m = Ok m1 /\ strips_in_order SS cc T O al alpha B A C l m = Ok m2 /\ forall a, m1 a = m2 a.
Proof.
  intros l m HW HD HC.
  destruct (C26_trmm_right_ops SS cc T O al alpha B A C m HSS Hcc HP) as (m1 & E1 & V1 & F1).
  destruct (C61_batch (map s_action l) m) as (m2 & E2 & V2 & F2).
  - rewrite Forall_map, Forall_forall. intros s Hs. apply s_confined. apply HW; auto.
  - apply ordpairs_map. eapply ordpairs_impl; [|exact HD]. intros s s' Hs Hs' Dj. cbn beta in *. destruct (HW s Hs), (HW s' Hs'). apply s_independent; auto.
  - exists m1, m2. split; auto. split.
    + rewrite <- E2. symmetry. apply strips_op.
    + intros a. destruct (block_dec M N (g_addr SS C) a) as [(i & j & Hi & Hj & ->)|Hn].
      * destruct (HC i Hi) as (s & Hs & Hin). destruct (HW s Hs) as (P & _).
        destruct (V2 (s_action s) (in_map _ _ _ Hs)) as (mc & Ec & Q).
        destruct (s_val s m P) as (mc' & Ec' & Vc & _).
        pose proof (eq_trans (eq_sym Ec) Ec') as X. injection X as ->.
        rewrite Q by (exists i, j; auto). rewrite V1, Vc by (auto; split; auto). reflexivity.
      * rewrite F1 by (intros i j [Hi Hj]; auto). symmetry. apply F2. intros c Hc. apply in_map_iff in Hc. destruct Hc as (s & <- & Hs).
        destruct (HW s Hs) as (_ & B1). cbn [s_action a_writes]. intros (i & j & [Hi Hj] & E). unfold in_strip in Hi. apply (Hn i j); auto; lia.
Qed.
End Strips.

(** C = alpha*B*A strip by strip, in whatever order and with whatever heights of the strips, also in place (C = B): exactly the memory one call leaves. *)
Theorem C61_trmm_right_by_strips : forall SS cc T (O : Ops T) al alpha B A C (l : list strip) m, 0 < SS -> 0 < cc ->
  trmmR_pre SS cc al B A C ->
  (forall s, In s l -> trmmR_pre SS cc al (strip_of B (g_cols B) s) A (strip_of C (g_cols B) s) /\ s_r s + s_m s <= g_rows B) ->
  ForallOrdPairs (fun s s' => forall i, in_strip s i -> ~ in_strip s' i) l ->
  (forall i, i < g_rows B -> exists s, In s l /\ in_strip s i) ->
  exists m1 m2, trmmR SS cc T O al alpha B A Lower false C m = Ok m1 /\ strips_in_order SS cc T O al alpha B A C l m = Ok m2 /\ forall a, m1 a = m2 a.
Proof. intros SS cc T O al alpha B A C l m HSS Hcc HP HW HD HC. apply trmm_strips; auto. Qed.

(** The same with the strips computed by p threads: however the strips are dealt out and however the threads are scheduled.  (Strips are atomic steps here; in C++ the vector loads
    of a strip also read its padding rows, so that strips have to begin and end at multiples of the register height for the threads not to race.) *)
Theorem C76_parallel_trmm_right_by_strips : forall SS cc T (O : Ops T) al alpha B A C (l : list strip) m p (share : nat -> list strip) sch, 0 < SS -> 0 < cc ->
  trmmR_pre SS cc al B A C ->
  (forall s, In s l -> trmmR_pre SS cc al (strip_of B (g_cols B) s) A (strip_of C (g_cols B) s) /\ s_r s + s_m s <= g_rows B) ->
  ForallOrdPairs (fun s s' => forall i, in_strip s i -> ~ in_strip s' i) l ->
  (forall i, i < g_rows B -> exists s, In s l /\ in_strip s i) ->
  Permutation l (concat (map share (seq 0 p))) -> (forall t, p <= t -> share t = []) -> (forall t, length (share t) <= turns t sch) ->
  exists ts' m1 m2, scheduled sch (fun t => map (s_action SS cc T O al alpha B A C) (share t)) m = Ok (ts', m1) /\
    trmmR SS cc T O al alpha B A Lower false C m = Ok m2 /\ (forall t, ts' t = []) /\ forall x, m1 x = m2 x.
Proof.
  intros SS cc T O al alpha B A C l m p share sch HSS Hcc HP HW HD HC PERM OUT LEN.
  destruct (trmm_strips SS cc T O al alpha B A C HSS Hcc HP l m HW HD HC) as (m2 & m3 & E2 & E3 & Q).
  destruct (C76_parallel T strip _ _ l m p share sch (strips_divide SS cc T O al alpha B A C HSS Hcc HP l HW HD) PERM OUT LEN) as (ts' & m1 & m3' & E1 & E3' & F & R).
  pose proof (eq_trans (eq_sym E3) E3') as X. injection X as <-. exists ts', m1, m2. split; [exact E1|]. split; [exact E2|]. split; [exact F|].
  intros x. rewrite R, Q. reflexivity.
Qed.

(** 6-by-5 times 5-by-5, in place, rows 4 and 5 first. *)
Definition s_l := [Strip true 4 2; Strip true 0 4].
Definition sB : marg := MArg (whole Properties_Trmm.eB) false.
Definition sA5 : marg := MArg (whole Properties_Trmm.eA5) false.
Example C61_strips_example : trmmR_pre 4 1 Properties_Trmm.e_al sB sA5 sB /\
  (forall s, In s s_l -> trmmR_pre 4 1 Properties_Trmm.e_al (strip_of sB (g_cols sB) s) sA5 (strip_of sB (g_cols sB) s) /\ s_r s + s_m s <= g_rows sB) /\
  ForallOrdPairs (fun s s' => forall i, in_strip s i -> ~ in_strip s' i) s_l /\
  (forall i, i < g_rows sB -> exists s, In s s_l /\ in_strip s i).
Proof.
  split; [exact C26_in_place_example|]. split; [|split].
  - intros s [<-|[<-|[]]]; (split; [|cbv; lia]).
    + check_pre. intros k j H1 H2. cbn in H2. unfold Properties_Trmm.e_al. apply Nat.ltb_lt. cbn. lia.
    + check_pre. intros k j H1 H2. cbn in H2. unfold Properties_Trmm.e_al. apply Nat.ltb_lt. cbn. lia.
  - repeat constructor. intros i. unfold in_strip. cbn. lia.
  - intros i Hi. cbn in Hi. destruct (le_lt_dec 4 i); [exists (Strip true 4 2)|exists (Strip true 0 4)]; (split; [cbn; auto|unfold in_strip; cbn; lia]).
Qed.
Example C61_strips_run : match trmmR 4 1 Z zops Properties_Trmm.e_al 2%Z sB sA5 Lower false sB (fun a => Z.of_nat (a mod 7)), strips_in_order 4 1 Z zops Properties_Trmm.e_al 2%Z sB sA5 sB s_l (fun a => Z.of_nat (a mod 7)) with
  | Ok m1, Ok m2 => forallb (fun a => Z.eqb (m1 a) (m2 a)) (seq 0 128) = true /\ m1 (g_addr 4 sB 5 1) <> 0%Z | _, _ => False end.
Proof. vm_compute. split; [reflexivity|discriminate]. Qed.
(** Two threads, a strip each, the second scheduled first. *)
Definition s_share (t : nat) : list strip := match t with 0 => [Strip true 4 2] | 1 => [Strip true 0 4] | _ => [] end.
Example C76_strips_example : Permutation s_l (concat (map s_share (seq 0 2))) /\ (forall t, 2 <= t -> s_share t = []) /\
  (forall t, length (s_share t) <= turns t [1; 0]) /\
  match scheduled [1; 0] (fun t => map (s_action 4 1 Z zops Properties_Trmm.e_al 2%Z sB sA5 sB) (s_share t)) (fun a => Z.of_nat (a mod 7)),
        trmmR 4 1 Z zops Properties_Trmm.e_al 2%Z sB sA5 Lower false sB (fun a => Z.of_nat (a mod 7)) with
  | Ok (_, m1), Ok m2 => forallb (fun a => Z.eqb (m1 a) (m2 a)) (seq 0 128) = true | _, _ => False end.
Proof.
  split; [apply Permutation_refl|]. split; [intros [|[|t]]; cbn; auto; lia|]. split; [intros [|[|t]]; cbn; lia|]. vm_compute. reflexivity.
Qed.
