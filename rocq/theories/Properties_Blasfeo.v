(** Properties_Blasfeo.v -- C65: products and factorisations through the BLASFEO wrappers. *)
From Coq Require Import Arith NArith ZArith Lia List Bool PeanoNat Reals Lra.
From Flocq Require Import Core.
From Verif Require Import Base Base_Proofs Spec Scan_Proofs Interop_Model Properties_Interop Blasfeo_Model Instances Algebra_Proofs Cholesky_Proofs.
From Verif Require Import Layout_Model Layout_Proofs Gemm_Model Properties_Gemm Properties_Trmm Properties_Potrf.
Import ListNotations.

Section Scan.
Variables (T : Type) (O : Ops T) (al : alloc).
(** The elements processed before element (i, j). *)
Definition earlier (lo : nat -> nat) (M i j i' j' : nat) : Prop := lo j' <= i' < M /\ (j' < j \/ j' = j /\ i' < i).
Lemma tri_scan : forall lo M N (ad : locations) g (e : nat -> nat -> T) m0, (forall j, j < N -> lo j <= M) -> distinct M N ad ->
  (forall i j m, lo j <= i < M -> j < N -> updated (earlier lo M i j) ad e m0 m -> g i j m = Ok (mupd m (ad i j) (e i j))) ->
  exists m', tri_loops T lo (Some M) (Some N) g m0 = Ok m' /\ updated (fun i j => lo j <= i < M /\ j < N) ad e m0 m'.
Proof.
  intros lo M N ad g e m0 Hlo D Hg. cbn [tri_loops].
  destruct (for_inv (mem T) (fun j m => updated (fun i' j' => lo j' <= i' < M /\ j' < j) ad e m0 m) 0 N
    (fun j s => for_ (lo j) M (fun i s => g i j s) s) m0) as (m' & E & P); try lia.
  - split; [intros ? ? []; lia|auto].
  - intros j m Hj U. destruct (for_inv (mem T) (fun i m => updated (earlier lo M i j) ad e m0 m) (lo j) M (fun i s => g i j s) m) as (m1 & E1 & U1); auto.
    + apply Hlo; lia.
    + destruct U as [U1 U2]. unfold earlier. split.
      * intros i' j' [H1 [H2|[-> H2]]]; [apply U1; auto|lia].
      * intros a Ha. apply U2. intros i' j' [H1 H2]. apply Ha. auto.
    + intros i m1 Hi U1. exists (mupd m1 (ad i j) (e i j)). split; [apply Hg; auto; lia|]. destruct U1 as [V1 V2]. split.
      * intros i' j' [H1 H2]. destruct (Nat.eq_dec i' i) as [->|N1]; [destruct (Nat.eq_dec j' j) as [->|N2]|].
        -- apply mupd_eq.
        -- rewrite mupd_neq by (intros X; apply D in X; lia). apply V1. split; auto. lia.
        -- rewrite mupd_neq by (intros X; apply D in X; lia). apply V1. split; auto. lia.
      * intros a Ha. rewrite mupd_neq. { apply V2. intros i' j' [H1 H2]. apply Ha. split; auto. lia. }
        apply Ha. split; [lia|]. right. lia.
    + exists m1. split; auto. destruct U1 as [V1 V2]. split.
      * intros i' j' [H1 H2]. apply V1. split; auto. lia.
      * intros a Ha. apply V2. intros i' j' [H1 H2]. apply Ha. split; auto. lia.
  - exists m'. split; auto.
Qed.
Lemma dot_ok : forall lo hi (x y : nat -> res T) fx fy, lo <= hi -> (forall l, lo <= l < hi -> x l = Ok (fx l)) -> (forall l, lo <= l < hi -> y l = Ok (fy l)) ->
  dot T O lo hi x y = Ok (sum O (hi - lo) (fun l => omul O (fx (lo + l)) (fy (lo + l)))).
Proof.
  intros lo hi x y fx fy H Hx Hy. unfold dot.
  destruct (for_inv T (fun l s => s = sum O (l - lo) (fun l => omul O (fx (lo + l)) (fy (lo + l)))) lo hi
    (fun l acc => a <- x l ;; b <- y l ;; Ok (oadd O acc (omul O a b))) (o0 O)) as (s & E & P); auto.
  - rewrite Nat.sub_diag. reflexivity.
  - intros l s Hl ->. rewrite Hx, Hy by lia. cbn [bind]. eexists. split; [reflexivity|].
    replace (S l - lo) with (S (l - lo)) by lia. cbn [sum]. replace (lo + (l - lo)) with l by lia. reflexivity.
  - rewrite E, P. reflexivity.
Qed.
End Scan.

(** The windows of a call are in range and allocated, the elements of D are distinct and apart from those of A and B. *)
Definition op_at (t : bool) (f : locations) : locations := fun i j => if t then f j i else f i j.
Lemma w_rd_window : forall T al M wi wj i j (s : mem T), int_range wi -> int_range wj -> al (window M wi wj i j) = true ->
  w_rd T al (wa M wi wj) i j s = Ok (s (window M wi wj i j)).
Proof. intros T al M wi wj i j s H1 H2 A. unfold w_rd, wa. cbn [w_i w_j w_mat]. rewrite !int_of_range by auto. apply rd_ok. exact A. Qed.
Lemma w_wr_window : forall T al M wi wj i j x (s : mem T), int_range wi -> int_range wj -> al (window M wi wj i j) = true ->
  w_wr T al (wa M wi wj) i j x s = Ok (mupd s (window M wi wj i j) x).
Proof. intros T al M wi wj i j x s H1 H2 A. unfold w_wr, wa. cbn [w_i w_j w_mat]. rewrite !int_of_range by auto. apply wr_ok. exact A. Qed.

Section Products.
Variables (T : Type) (O : Ops T) (al : alloc) (m n k : nat) (alpha beta : T) (sA : smat) (ai aj : nat) (sB : smat) (bi bj : nat).
Variables (sC : smat) (ci cj : nat) (sD : smat) (di dj : nat).
Definition ranges : Prop := int_range m /\ int_range n /\ int_range k /\ (int_range ai /\ int_range aj) /\ (int_range bi /\ int_range bj) /\
  (int_range ci /\ int_range cj) /\ int_range di /\ int_range dj.
(** C may be D: element by element *)
Definition source_or_apart (P : nat -> nat -> Prop) (adC adD : locations) : Prop :=
  forall i j i' j', P i j -> P i' j' -> adC i j = adD i' j' -> i = i' /\ j = j'.

Lemma gemm_lib_ok : forall ta tb s, let A := op_at ta (window sA ai aj) in let B := op_at tb (window sB bi bj) in let C := window sC ci cj in let D := window sD di dj in
  ranges -> allocated al m k A -> allocated al k n B -> allocated al m n C -> allocated al m n D -> distinct m n D ->
  separate m k A m n D -> separate k n B m n D -> source_or_apart (block m n) C D ->
  exists s', lib_gemm T O al ta tb (int_of m) (int_of n) (int_of k) alpha (wa sA ai aj) (wa sB bi bj) beta (wa sC ci cj) (wa sD di dj) s = Ok s' /\
    updated (block m n) D (fun i j => oadd O (omul O beta (s (C i j))) (omul O alpha (sum O k (fun l => omul O (s (A i l)) (s (B l j)))))) s s'.
Proof.
  intros ta tb s A B C D (Rm & Rn & Rk & [Ra Ra'] & [Rb Rb'] & [Rc Rc'] & Rd & Rd') AA AB AC AD DD SA SB SC. unfold lib_gemm. rewrite !int_of_range by auto. cbn [terms].
  match goal with |- context [tri_loops T ?lo _ _ ?g _] =>
    destruct (tri_scan T lo m n D g (fun i j => oadd O (omul O beta (s (C i j))) (omul O alpha (sum O k (fun l => omul O (s (A i l)) (s (B l j)))))) s) as (s' & E & U); auto end.
  - intros j Hj. lia.
  - intros i j s1 [_ Hi] Hj [_ U].
    assert (Q : forall x, (forall i' j', i' < m -> j' < n -> x <> D i' j') -> s1 x = s x).
    { intros x Hx. apply U. intros i' j' [H1 H2]. apply Hx; lia. }
    rewrite (dot_ok T O 0 k _ _ (fun l => s (A i l)) (fun l => s (B l j))); try lia.
    + cbn [bind]. rewrite w_rd_window by (auto; apply AC; auto). cbn [bind]. rewrite w_wr_window by (auto; apply AD; auto).
      rewrite Nat.sub_0_r. cbn [Nat.add]. do 4 f_equal. apply U. intros i' j' [H1 H2] X. destruct (SC i j i' j') as [Q1 Q2]; [split; lia|split; lia|exact X|lia].
    + intros l Hl. unfold A, op_at in *. destruct ta; (rewrite w_rd_window; [|auto..|apply (AA i l); lia]); f_equal; apply Q; intros; apply (SA i l); auto; lia.
    + intros l Hl. unfold B, op_at in *. destruct tb; (rewrite w_rd_window; [|auto..|apply (AB l j); lia]); f_equal; apply Q; intros; apply (SB l j); auto; lia.
  - exists s'. split; [exact E|]. destruct U as [U1 U2]. split.
    + intros i j [H1 H2]. apply U1. split; lia.
    + intros a Ha. apply U2. intros i j [H1 H2]. apply Ha. split; lia.
Qed.
End Products.

(** Every size and offset of the call is representable as int. *)
Definition ints (l : list nat) : Prop := Forall int_range l.
Ltac ints := match goal with R : ints ?l |- _ => unfold ints in R; rewrite Forall_forall in R; unfold ranges; repeat split; apply R; cbn; tauto end.

(** D := beta * C + alpha * A * B, alpha * A^T * B or alpha * A * B^T on the windows, and nothing else is written; C may be D. *)
Theorem C65_gemm_nn : forall T (O : Ops T) al m n k alpha sA ai aj sB bi bj beta sC ci cj sD di dj (s : mem T),
  let A := window sA ai aj in let B := window sB bi bj in let C := window sC ci cj in let D := window sD di dj in
  ints [m; n; k; ai; aj; bi; bj; ci; cj; di; dj] ->
  allocated al m k A -> allocated al k n B -> allocated al m n C -> allocated al m n D -> distinct m n D ->
  separate m k A m n D -> separate k n B m n D -> source_or_apart (block m n) C D ->
  exists s', gemm_nn T O al m n k alpha sA ai aj sB bi bj beta sC ci cj sD di dj s = Ok s' /\
    updated (block m n) D (fun i j => oadd O (omul O beta (s (C i j))) (omul O alpha (sum O k (fun l => omul O (s (A i l)) (s (B l j)))))) s s'.
Proof. intros; apply (gemm_lib_ok T O al m n k alpha beta sA ai aj sB bi bj sC ci cj sD di dj false false s); auto; ints. Qed.
Theorem C65_gemm_tn : forall T (O : Ops T) al m n k alpha sA ai aj sB bi bj beta sC ci cj sD di dj (s : mem T),
  let A := window sA ai aj in let B := window sB bi bj in let C := window sC ci cj in let D := window sD di dj in
  ints [m; n; k; ai; aj; bi; bj; ci; cj; di; dj] ->
  allocated al k m A -> allocated al k n B -> allocated al m n C -> allocated al m n D -> distinct m n D ->
  separate k m A m n D -> separate k n B m n D -> source_or_apart (block m n) C D ->
  exists s', gemm_tn T O al m n k alpha sA ai aj sB bi bj beta sC ci cj sD di dj s = Ok s' /\
    updated (block m n) D (fun i j => oadd O (omul O beta (s (C i j))) (omul O alpha (sum O k (fun l => omul O (s (A l i)) (s (B l j)))))) s s'.
Proof.
  intros T O al m n k alpha sA ai aj sB bi bj beta sC ci cj sD di dj s A B C D R AA AB AC AD DD SA SB SC.
  apply (gemm_lib_ok T O al m n k alpha beta sA ai aj sB bi bj sC ci cj sD di dj true false s); auto; [ints|..]; unfold op_at; red; intros; [apply AA|apply SA]; auto.
Qed.
Theorem C65_gemm_nt : forall T (O : Ops T) al m n k alpha sA ai aj sB bi bj beta sC ci cj sD di dj (s : mem T),
  let A := window sA ai aj in let B := window sB bi bj in let C := window sC ci cj in let D := window sD di dj in
  ints [m; n; k; ai; aj; bi; bj; ci; cj; di; dj] ->
  allocated al m k A -> allocated al n k B -> allocated al m n C -> allocated al m n D -> distinct m n D ->
  separate m k A m n D -> separate n k B m n D -> source_or_apart (block m n) C D ->
  exists s', gemm_nt T O al m n k alpha sA ai aj sB bi bj beta sC ci cj sD di dj s = Ok s' /\
    updated (block m n) D (fun i j => oadd O (omul O beta (s (C i j))) (omul O alpha (sum O k (fun l => omul O (s (A i l)) (s (B j l)))))) s s'.
Proof.
  intros T O al m n k alpha sA ai aj sB bi bj beta sC ci cj sD di dj s A B C D R AA AB AC AD DD SA SB SC.
  apply (gemm_lib_ok T O al m n k alpha beta sA ai aj sB bi bj sC ci cj sD di dj false true s); auto; [ints|..]; unfold op_at; red; intros; [apply AB|apply SB]; auto.
Qed.
(** Sizes of 2^31 and more wrap: nothing is computed (here a number of rows that converts to a negative int). *)
Theorem C65_int_refuted : forall T (O : Ops T) al m n k alpha sA ai aj sB bi bj beta sC ci cj sD di dj (s : mem T),
  (2 ^ 31 <= N.of_nat m mod 2 ^ 32)%N -> gemm_nn T O al m n k alpha sA ai aj sB bi bj beta sC ci cj sD di dj s = Ok s.
Proof. intros. unfold gemm_nn, lib_gemm. rewrite (int_of_negative m) by auto. reflexivity. Qed.

(** ... and an inner dimension of 2^31 or more (up to 2^32) loses the product: D := beta * C + alpha * 0. *)
Theorem C65_int_inner_refuted : forall T (O : Ops T) al m n k alpha sA ai aj sB bi bj beta sC ci cj sD di dj (s : mem T),
  let C := window sC ci cj in let D := window sD di dj in
  (2 ^ 31 <= N.of_nat k mod 2 ^ 32)%N -> ints [m; n; ci; cj; di; dj] ->
  allocated al m n C -> allocated al m n D -> distinct m n D -> source_or_apart (block m n) C D ->
  exists s', gemm_nn T O al m n k alpha sA ai aj sB bi bj beta sC ci cj sD di dj s = Ok s' /\
    updated (block m n) D (fun i j => oadd O (omul O beta (s (C i j))) (omul O alpha (o0 O))) s s'.
Proof.
  intros T O al m n k alpha sA ai aj sB bi bj beta sC ci cj sD di dj s C D HK R AC AD DD SC.
  assert (RR : int_range m /\ int_range n /\ int_range ci /\ int_range cj /\ int_range di /\ int_range dj) by (unfold ints in R; rewrite !Forall_cons_iff in R; tauto).
  destruct RR as (Rm & Rn & Rc & Rc' & Rd & Rd').
  unfold gemm_nn, lib_gemm. rewrite (int_of_negative k) by auto. rewrite !(int_of_range m), !(int_of_range n) by auto. cbn [terms].
  match goal with |- context [tri_loops T ?lo _ _ ?g _] =>
    destruct (tri_scan T lo m n D g (fun i j => oadd O (omul O beta (s (C i j))) (omul O alpha (o0 O))) s) as (s' & E & U); auto end.
  - intros j Hj. lia.
  - intros i j s1 Hi Hj [_ U]. unfold dot, for_. cbn [loop Nat.sub bind].
    rewrite w_rd_window by (auto; apply AC; lia). cbn [bind]. rewrite w_wr_window by (auto; apply AD; lia).
    do 4 f_equal. apply U. intros i' j' H X. destruct H as [H1 H2]. destruct (SC i j i' j') as [Q1 Q2]; [unfold block; lia|unfold block; lia|exact X|lia].
  - exists s'. split; auto. destruct U as [U1 U2]. split; [intros i j [H1 H2]; apply U1; lia|]. intros a Ha. apply U2. intros i j [H1 H2]. apply Ha. split; lia.
Qed.
(** Lower triangle of D := beta * C + alpha * A * B^T; the part above the diagonal is not written. *)
Theorem C65_syrk_ln : forall T (O : Ops T) al S (narrow : S -> T) m k alpha sA ai aj sB bi bj beta sC ci cj sD di dj (s : mem T),
  let A := window sA ai aj in let B := window sB bi bj in let C := window sC ci cj in let D := window sD di dj in
  ints [m; k; ai; aj; bi; bj; ci; cj; di; dj] ->
  allocated al m k A -> allocated al m k B -> allocated al m m C -> allocated al m m D -> distinct m m D ->
  separate m k A m m D -> separate m k B m m D -> source_or_apart (lower m m) C D ->
  exists s', syrk_ln T O al narrow m k alpha sA ai aj sB bi bj beta sC ci cj sD di dj s = Ok s' /\
    updated (lower m m) D (fun i j => oadd O (omul O (narrow beta) (s (C i j))) (omul O (narrow alpha) (sum O k (fun l => omul O (s (A i l)) (s (B j l)))))) s s'.
Proof.
  intros T O al S narrow m k alpha sA ai aj sB bi bj beta sC ci cj sD di dj s A B C D R AA AB AC AD DD SA SB SC.
  assert (RR : ranges m m k ai aj bi bj ci cj di dj) by ints. destruct RR as (Rm & _ & Rk & [Ra Ra'] & [Rb Rb'] & [Rc Rc'] & Rd & Rd').
  unfold syrk_ln, lib_syrk_ln. rewrite !(int_of_range m), !(int_of_range k) by auto. cbn [terms].
  match goal with |- context [tri_loops T ?lo _ _ ?g _] =>
    destruct (tri_scan T lo m m D g (fun i j => oadd O (omul O (narrow beta) (s (C i j))) (omul O (narrow alpha) (sum O k (fun l => omul O (s (A i l)) (s (B j l)))))) s) as (s' & E & U); auto end.
  - intros j Hj. lia.
  - intros i j s1 Hi Hj [_ U].
    assert (Q : forall x, (forall i' j', i' < m -> j' < m -> x <> D i' j') -> s1 x = s x).
    { intros x Hx. apply U. intros i' j' [H1 H2]. apply Hx; lia. }
    rewrite (dot_ok T O 0 k _ _ (fun l => s (A i l)) (fun l => s (B j l))); try lia.
    + cbn [bind]. rewrite w_rd_window by (auto; apply AC; lia). cbn [bind]. rewrite w_wr_window by (auto; apply AD; lia).
      rewrite Nat.sub_0_r. cbn [Nat.add]. do 4 f_equal. apply U. intros i' j' [H1 H2] X. destruct (SC i j i' j') as [Q1 Q2]; [unfold lower; lia|unfold lower; lia|exact X|lia].
    + intros l Hl. rewrite w_rd_window; [|auto..|apply (AA i l); lia]. f_equal. apply Q. intros. apply (SA i l); auto; lia.
    + intros l Hl. rewrite w_rd_window; [|auto..|apply (AB j l); lia]. f_equal. apply Q. intros. apply (SB j l); auto; lia.
  - exists s'. split; [exact E|]. destruct U as [U1 U2]. split.
    + intros i j (H1 & H2 & H3). apply U1. lia.
    + intros a Ha. apply U2. intros i j [H1 H2]. apply Ha. unfold lower. lia.
Qed.

(** D := alpha * B * A for lower triangular A, of which only the lower triangle is read. *)
Lemma trmm_lib_ok : forall T (O : Ops T) al (f : locations) (rdA : nat -> nat -> mem T -> res T) m n alpha sB bi bj sD di dj (s : mem T),
  let B := window sB bi bj in let D := window sD di dj in ring_laws O -> ints [m; n; bi; bj; di; dj] ->
  (forall l j s, j <= l < n -> rdA l j s = Ok (s (f l j))) -> allocated al m n B -> allocated al m n D -> distinct m n D ->
  (forall l j i' j', j <= l < n -> i' < m -> j' < n -> f l j <> D i' j') -> separate m n B m n D ->
  exists s', tri_loops T (fun _ => 0) (int_of m) (int_of n) (fun i j s =>
      p <- dot T O j (terms (int_of n)) (fun l => w_rd T al (wa sB bi bj) i l s) (fun l => rdA l j s) ;; w_wr T al (wa sD di dj) i j (omul O alpha p) s) s = Ok s' /\
    updated (block m n) D (fun i j => omul O alpha (sum O n (fun l => omul O (s (B i l)) (lower_of O (fun l j => s (f l j)) l j)))) s s'.
Proof.
  intros T O al f rdA m n alpha sB bi bj sD di dj s B D RL R RA AB AD DD SA SB.
  assert (RR : ranges m n n bi bj bi bj bi bj di dj) by ints. destruct RR as (Rm & Rn & _ & [Rb Rb'] & _ & _ & Rd & Rd').
  rewrite !(int_of_range m), !(int_of_range n) by auto. cbn [terms].
  match goal with |- context [tri_loops T ?lo _ _ ?g _] =>
    destruct (tri_scan T lo m n D g (fun i j => omul O alpha (sum O n (fun l => omul O (s (B i l)) (lower_of O (fun l j => s (f l j)) l j)))) s) as (s' & E & U); auto end.
  - intros j Hj. lia.
  - intros i j s1 [_ Hi] Hj [_ U].
    assert (Q : forall x, (forall i' j', i' < m -> j' < n -> x <> D i' j') -> s1 x = s x).
    { intros x Hx. apply U. intros i' j' [H1 H2]. apply Hx; lia. }
    rewrite (dot_ok T O j n _ _ (fun l => s (B i l)) (fun l => s (f l j))); try lia.
    + cbn [bind]. rewrite w_wr_window by (auto; apply AD; lia). do 3 f_equal.
      replace n with (j + (n - j)) at 2 by lia. rewrite (sum_split O RL). rewrite (sum_0 O RL j).
      * rewrite (rl_add_0 O RL). apply sum_ext. intros l Hl. unfold lower_of. destruct (Nat.leb_spec j (j + l)); [reflexivity|lia].
      * intros l Hl. unfold lower_of. destruct (Nat.leb_spec j l); [lia|]. apply (mul_0_r O RL).
    + intros l Hl. rewrite w_rd_window; [|auto..|apply (AB i l); lia]. f_equal. apply Q. intros. apply (SB i l); auto; lia.
    + intros l Hl. rewrite RA by lia. f_equal. apply Q. intros. apply SA; auto.
  - exists s'. split; [exact E|]. destruct U as [U1 U2]. split.
    + intros i j [H1 H2]. apply U1. split; lia.
    + intros a Ha. apply U2. intros i j [H1 H2]. apply Ha. split; lia.
Qed.
Theorem C65_trmm_rlnn : forall T (O : Ops T) al m n alpha sA ai aj sB bi bj sD di dj (s : mem T),
  let A := window sA ai aj in let B := window sB bi bj in let D := window sD di dj in
  ring_laws O -> ints [m; n; ai; aj; bi; bj; di; dj] ->
  (forall i j, lower n n i j -> al (A i j) = true) -> allocated al m n B -> allocated al m n D -> distinct m n D ->
  (forall i j i' j', lower n n i j -> block m n i' j' -> A i j <> D i' j') -> separate m n B m n D ->
  exists s', trmm_rlnn T O al m n alpha sA ai aj sB bi bj sD di dj s = Ok s' /\
    updated (block m n) D (fun i j => omul O alpha (sum O n (fun l => omul O (s (B i l)) (lower_of O (fun l j => s (A l j)) l j)))) s s'.
Proof.
  intros T O al m n alpha sA ai aj sB bi bj sD di dj s A B D RL R AA AB AD DD SA SB.
  apply (trmm_lib_ok T O al A (fun l j s => w_rd T al (wa sA ai aj) l j s)); auto.
  - unfold ints in *. rewrite Forall_forall in *. intros x Hx. apply R. cbn in *. tauto.
  - intros l j s' Hl. assert (RR : ranges m n n ai aj ai aj ai aj di dj) by ints. destruct RR as (_ & _ & _ & [] & _). apply w_rd_window; auto. apply AA. unfold lower. lia.
  - intros l j i' j' Hl Hi Hj. apply SA; [unfold lower; lia|split; auto].
Qed.
(** D := alpha * B * A^T for upper triangular A (the documentation of the function names the wrong matrix as triangular). *)
Theorem C65_trmm_rutn : forall T (O : Ops T) al m n alpha sA ai aj sB bi bj sD di dj (s : mem T),
  let A := window sA ai aj in let B := window sB bi bj in let D := window sD di dj in
  ring_laws O -> ints [m; n; ai; aj; bi; bj; di; dj] ->
  (forall i j, lower n n j i -> al (A i j) = true) -> allocated al m n B -> allocated al m n D -> distinct m n D ->
  (forall i j i' j', lower n n j i -> block m n i' j' -> A i j <> D i' j') -> separate m n B m n D ->
  exists s', trmm_rutn T O al m n alpha sA ai aj sB bi bj sD di dj s = Ok s' /\
    updated (block m n) D (fun i j => omul O alpha (sum O n (fun l => omul O (s (B i l)) (upper_of O (fun j l => s (A j l)) j l)))) s s'.
Proof.
  intros T O al m n alpha sA ai aj sB bi bj sD di dj s A B D RL R AA AB AD DD SA SB.
  apply (trmm_lib_ok T O al (fun l j => A j l) (fun l j s => w_rd T al (wa sA ai aj) j l s)); auto.
  - unfold ints in *. rewrite Forall_forall in *. intros x Hx. apply R. cbn in *. tauto.
  - intros l j s' Hl. assert (RR : ranges m n n ai aj ai aj ai aj di dj) by ints. destruct RR as (_ & _ & _ & [] & _). apply w_rd_window; auto. apply AA. unfold lower. lia.
  - intros l j i' j' Hl Hi Hj. apply SA; [unfold lower; lia|split; auto].
Qed.

(* ------------------------------------------------------------------ Cholesky factorisations *)
Section Chol.
Variables (T : Type) (O : Ops T).
(** The factor of the lower triangle of [a] after n columns. *)
Fixpoint chol_cols (a : nat -> nat -> T) (n : nat) : nat -> nat -> T :=
  match n with
  | 0 => a
  | S j => let l := chol_cols a j in
           let v i := osub O (a i j) (sum O j (fun k => omul O (l i k) (l j k))) in
           fun i j' => if j' =? j then (if i =? j then osqrt O (v j) else odiv O (v i) (osqrt O (v j))) else l i j'
  end.
Definition chol_col (a : nat -> nat -> T) (i j : nat) : T := chol_cols a (S j) i j.
Lemma chol_cols_before : forall a n i j, j < n -> chol_cols a n i j = chol_col a i j.
Proof.
  intros a n i j H. induction n as [|n IH]; [lia|]. destruct (Nat.eq_dec j n) as [->|N]; [reflexivity|].
  cbn [chol_cols]. destruct (Nat.eqb_spec j n); [lia|]. apply IH. lia.
Qed.
Lemma chol_col_eq : forall a i j, chol_col a i j =
  let v i := osub O (a i j) (sum O j (fun k => omul O (chol_col a i k) (chol_col a j k))) in
  if i =? j then osqrt O (v j) else odiv O (v i) (chol_col a j j).
Proof.
  assert (V : forall a i j, sum O j (fun k => omul O (chol_cols a j i k) (chol_cols a j j k)) = sum O j (fun k => omul O (chol_col a i k) (chol_col a j k))).
  { intros a i j. apply sum_ext. intros k Hk. rewrite !chol_cols_before by auto. reflexivity. }
  assert (Dg : forall a j, chol_col a j j = osqrt O (osub O (a j j) (sum O j (fun k => omul O (chol_col a j k) (chol_col a j k))))).
  { intros a j. unfold chol_col at 1. cbn [chol_cols]. rewrite !Nat.eqb_refl, V. reflexivity. }
  intros a i j. cbv beta zeta. rewrite <- Dg. unfold chol_col at 1. cbn [chol_cols]. rewrite Nat.eqb_refl, !V. rewrite <- Dg.
  destruct (Nat.eqb_spec i j); reflexivity.
Qed.
Variable al : alloc.
Lemma lib_chol_ok : forall m c (a : nat -> nat -> T) sD di dj (s : mem T), let D := window sD di dj in ints [m; di; dj] ->
  allocated al m m D -> distinct m m D ->
  (forall i j s1, lower m m i j -> updated (earlier (fun j => j) m i j) D (chol_col a) s s1 -> c i j s1 = Ok (a i j)) ->
  exists s', lib_chol T O al (int_of m) c (wa sD di dj) s = Ok s' /\ updated (lower m m) D (chol_col a) s s'.
Proof.
  intros m c a sD di dj s D R AD DD HC. assert (RR : ranges m m m di dj di dj di dj di dj) by ints.
  destruct RR as (Rm & _ & _ & [Rd Rd'] & _). unfold lib_chol. rewrite !(int_of_range m) by auto.
  match goal with |- context [tri_loops T ?lo _ _ ?g _] => destruct (tri_scan T lo m m D g (chol_col a) s) as (s' & E & U); auto end.
  - intros j Hj. lia.
  - intros i j s1 Hi Hj U. rewrite HC by (auto; unfold lower; lia). cbn [bind]. destruct U as [U _].
    rewrite (dot_ok T O 0 j _ _ (fun l => chol_col a i l) (fun l => chol_col a j l)); try lia.
    + cbn [bind]. rewrite Nat.sub_0_r. cbn [Nat.add]. rewrite (chol_col_eq a i j). cbv beta zeta. destruct (Nat.eqb_spec i j) as [->|N].
      * rewrite w_wr_window by (auto; apply AD; lia). reflexivity.
      * rewrite w_rd_window by (auto; apply AD; lia). cbn [bind]. rewrite w_wr_window by (auto; apply AD; lia).
        fold D. rewrite U by (unfold earlier; lia). reflexivity.
    + intros l Hl. rewrite w_rd_window by (auto; apply AD; lia). fold D. rewrite U by (unfold earlier; lia). reflexivity.
    + intros l Hl. rewrite w_rd_window by (auto; apply AD; lia). fold D. rewrite U by (unfold earlier; lia). reflexivity.
  - exists s'. split; [exact E|]. destruct U as [U1 U2]. split.
    + intros i j (H1 & H2 & H3). apply U1. lia.
    + intros b Hb. apply U2. intros i j [H1 H2]. apply Hb. unfold lower. lia.
Qed.
End Chol.
Lemma chol_col_real : forall N a l, pos_def N a -> (forall i j, lower N N i j -> l i j = chol_col R rops a i j) -> cholesky_factor N N a l.
Proof.
  intros N a l PD HL.
  assert (SE : forall i j, lower N N i j -> sum rops j (fun k => chol_col R rops a i k * chol_col R rops a j k)%R = sum rops j (fun k => l i k * l j k)%R).
  { intros i j (H1 & H2 & H3). apply sum_ext. intros k Hk. rewrite !HL by (unfold lower; lia). reflexivity. }
  assert (D : forall j, j < N -> l j j = sqrt (pivot a l j)).
  { intros j Hj. rewrite HL by (unfold lower; lia). rewrite chol_col_eq. cbv beta zeta. rewrite Nat.eqb_refl. cbn [osqrt osub omul rops].
    rewrite SE by (unfold lower; lia). reflexivity. }
  assert (F : forall i j, lower N N i j -> i <> j -> l i j = ((a i j - sum rops j (fun k => l i k * l j k)) / l j j)%R).
  { intros i j H Ne. rewrite (HL i j) by auto. rewrite chol_col_eq. cbv beta zeta. destruct (Nat.eqb_spec i j); [lia|]. cbn [odiv osub omul rops].
    rewrite SE by auto. rewrite (HL j j) by (unfold lower in *; lia). reflexivity. }
  assert (K : forall i j, lower N N i j -> (0 < pivot a l j -> l i j * l j j = a i j - sum rops j (fun k => l i k * l j k))%R).
  { intros i j H Hp. pose proof (sqrt_lt_R0 _ Hp) as Hs. rewrite <- D in Hs by (unfold lower in H; lia).
    destruct (Nat.eq_dec i j) as [->|Ne].
    - rewrite D by (unfold lower in H; lia). rewrite sqrt_sqrt by lra. reflexivity.
    - rewrite (F i j) by auto. unfold Rdiv. rewrite Rmult_assoc, Rinv_l by lra. lra. }
  destruct PD as [Sy PD].
  assert (POS : forall j, j < N -> (0 < pivot a l j)%R).
  { apply (pivots_positive N a l); auto. intros j Hj Hp. split.
    - rewrite D by auto. apply sqrt_lt_R0; auto.
    - intros i Hi. change (sum rops j (fun k => l i k * l j k)%R + l i j * l j j = a i j)%R.
      rewrite K by (auto; unfold lower; lia). lra. }
  split.
  - intros i j Hl. pose proof Hl as (H1 & H2 & H3).
    change (S_ N (fun k => (lower_of rops l i k * lower_of rops l j k)%R) = a i j).
    rewrite (S_trunc N (S j)).
    + change (sum rops j (fun k => lower_of rops l i k * lower_of rops l j k)%R + lower_of rops l i j * lower_of rops l j j = a i j)%R.
      rewrite (sum_ext rops j _ (fun k => (l i k * l j k)%R)).
      * unfold lower_of. rewrite !(proj2 (Nat.leb_le _ _)) by lia. rewrite K by auto. lra.
      * intros k Hk. unfold lower_of. rewrite !(proj2 (Nat.leb_le _ _)) by lia. reflexivity.
    + lia.
    + intros k Hk. unfold lower_of at 2. destruct (Nat.leb_spec k j); [lia|]. cbn. ring.
  - intros j Hj. rewrite D by auto. apply sqrt_lt_R0; auto.
Qed.

(** potrf: the lower triangle of D becomes the Cholesky factor of the positive definite matrix whose lower triangle is in C; nothing else
    is written, the upper triangles are not accessed, and C may be D. *)
Theorem C65_potrf : forall al m sC ci cj sD di dj (s : mem R) a, let C := window sC ci cj in let D := window sD di dj in
  ints [m; ci; cj; di; dj] -> allocated al m m D -> distinct m m D -> (forall i j, lower m m i j -> al (C i j) = true) ->
  source_or_apart (lower m m) C D -> pos_def m a -> (forall i j, lower m m i j -> s (C i j) = a i j) ->
  exists s', bf_potrf R rops al m sC ci cj sD di dj s = Ok s' /\ cholesky_factor m m a (fun i j => s' (D i j)) /\
    (forall x, (forall i j, lower m m i j -> x <> D i j) -> s' x = s x).
Proof.
  intros al m sC ci cj sD di dj s a C D R AD DD AC SC PD HA. unfold bf_potrf, lib_potrf_l.
  destruct (lib_chol_ok Rdefinitions.R rops al m (fun i j s => w_rd Rdefinitions.R al (wa sC ci cj) i j s) a sD di dj s) as (s' & E & U1 & U2); auto.
  - unfold ints in *. rewrite Forall_forall in *. intros x Hx. apply R. cbn in *. tauto.
  - intros i j s1 Hl [_ U]. assert (RR : ranges m m m ci cj ci cj ci cj di dj) by ints. destruct RR as (_ & _ & _ & [Rc Rc'] & _).
    rewrite w_rd_window by (auto; apply AC; auto). f_equal. fold C. rewrite <- (HA i j Hl). apply U.
    intros i' j' [H1 H2] X. unfold lower in Hl. destruct (SC i j i' j') as [Q1 Q2]; auto; unfold lower; lia.
  - exists s'. split; [exact E|]. split; [|exact U2]. apply chol_col_real; auto.
Qed.
(** syrk_potrf: the same for C + A * B^T. *)
Theorem C65_syrk_potrf : forall al m k sA ai aj sB bi bj sC ci cj sD di dj (s : mem R) a,
  let A := window sA ai aj in let B := window sB bi bj in let C := window sC ci cj in let D := window sD di dj in
  ints [m; k; ai; aj; bi; bj; ci; cj; di; dj] -> allocated al m k A -> allocated al m k B -> allocated al m m D -> distinct m m D ->
  (forall i j, lower m m i j -> al (C i j) = true) -> separate m k A m m D -> separate m k B m m D -> source_or_apart (lower m m) C D ->
  pos_def m a -> (forall i j, lower m m i j -> (s (C i j) + sum rops k (fun l => s (A i l) * s (B j l)) = a i j)%R) ->
  exists s', syrk_potrf R rops al m k sA ai aj sB bi bj sC ci cj sD di dj s = Ok s' /\ cholesky_factor m m a (fun i j => s' (D i j)) /\
    (forall x, (forall i j, lower m m i j -> x <> D i j) -> s' x = s x).
Proof.
  intros al m k sA ai aj sB bi bj sC ci cj sD di dj s a A B C D R AA AB AD DD AC SA SB SC PD HA.
  assert (RR : ranges m m k ai aj bi bj ci cj di dj) by ints. destruct RR as (Rm & _ & Rk & [Ra Ra'] & [Rb Rb'] & [Rc Rc'] & Rd & Rd').
  unfold syrk_potrf, lib_syrk_potrf_ln.
  match goal with |- context [lib_chol _ _ _ _ ?c _] => destruct (lib_chol_ok Rdefinitions.R rops al m c a sD di dj s) as (s' & E & U1 & U2); auto end.
  - unfold ints in *. rewrite Forall_forall in *. intros x Hx. apply R. cbn in *. tauto.
  - intros i j s1 Hl [_ U]. pose proof Hl as (H1 & H2 & H3).
    assert (Q : forall x, (forall i' j', i' < m -> j' < m -> x <> D i' j') -> s1 x = s x).
    { intros x Hx. apply U. intros i' j' [G1 G2]. apply Hx; lia. }
    rewrite (int_of_range k) by auto. cbn [terms].
    rewrite (dot_ok Rdefinitions.R rops 0 k _ _ (fun l => s (A i l)) (fun l => s (B j l))); try lia.
    + cbn [bind]. rewrite w_rd_window by (auto; apply AC; auto). cbn [bind]. f_equal. fold C. rewrite Nat.sub_0_r. cbn [Nat.add].
      rewrite <- (HA i j Hl). cbn [oadd omul rops]. f_equal. apply U.
      intros i' j' [G1 G2] X. destruct (SC i j i' j') as [Q1 Q2]; auto; unfold lower; lia.
    + intros l Hl'. rewrite w_rd_window; [|auto..|apply (AA i l); lia]. f_equal. apply Q. intros. apply (SA i l); auto; lia.
    + intros l Hl'. rewrite w_rd_window; [|auto..|apply (AB j l); lia]. f_equal. apply Q. intros. apply (SB j l); auto; lia.
  - exists s'. split; [exact E|]. split; [|exact U2]. apply chol_col_real; auto.
Qed.

(* ------------------------------------------------------------------ the way of test/blasfeo/GemmTest.cpp *)
(** Copy three Blaze matrices to BLASFEO matrices (in memory adA, adB, adC), multiply into sD, copy the result back. *)
Definition blaze_product T O al (adA adB adC : locations) (A B C : bmat) (sD : smat) (dst : bmat) (alpha beta : T) (s : mem T) : res (mem T * bmat) :=
  rA <- dynamic_from T al adA A s ;;
  rB <- dynamic_from T al adB B (fst rA) ;;
  rC <- dynamic_from T al adC C (fst rB) ;;
  s <- gemm_nn T O al (bm_rows A) (bm_cols B) (bm_cols A) alpha (snd rA) 0 0 (snd rB) 0 0 beta (snd rC) 0 0 sD 0 0 (fst rC) ;;
  matrix_unpack T al sD dst s.
(** The result is beta * C + alpha * A * B, whatever the spacings and the memory of the BLASFEO matrices are. *)
Theorem C65_product : forall T (O : Ops T) al adA adB adC A B C sD dst dst' alpha beta (s : mem T),
  let m := bm_rows A in let n := bm_cols B in let k := bm_cols A in let D := sm_at sD in
  bm_order A = columnMajor -> bm_order B = columnMajor -> bm_order C = columnMajor -> bm_order dst = columnMajor ->
  bm_rows B = k -> bm_rows C = m -> bm_cols C = n -> sm_rows sD = m -> sm_cols sD = n -> bm_resize dst m n = Ok dst' ->
  ints [m; n; k; bm_spacing A; bm_spacing B; bm_spacing C; bm_spacing dst'] ->
  allocated al m k (bm_at A) -> allocated al k n (bm_at B) -> allocated al m n (bm_at C) -> allocated al m n (bm_at dst') ->
  allocated al m k adA -> allocated al k n adB -> allocated al m n adC -> allocated al m n D ->
  distinct m k adA -> distinct k n adB -> distinct m n adC -> distinct m n D -> distinct m n (bm_at dst') ->
  separate m k (bm_at A) m k adA -> separate k n (bm_at B) m k adA -> separate m n (bm_at C) m k adA ->
  separate k n (bm_at B) k n adB -> separate m n (bm_at C) k n adB -> separate m k adA k n adB ->
  separate m n (bm_at C) m n adC -> separate m k adA m n adC -> separate k n adB m n adC ->
  separate m k adA m n D -> separate k n adB m n D -> separate m n adC m n D -> separate m n D m n (bm_at dst') ->
  exists s', blaze_product T O al adA adB adC A B C sD dst alpha beta s = Ok (s', dst') /\ bm_rows dst' = m /\ bm_cols dst' = n /\
    forall i j, i < m -> j < n -> s' (bm_at dst' i j) =
      oadd O (omul O beta (s (bm_at C i j))) (omul O alpha (sum O k (fun l => omul O (s (bm_at A i l)) (s (bm_at B l j))))).
Proof.
  intros T O al adA adB adC A B C sD dst dst' alpha beta s m n k D OA OB OC OD EB EC1 EC2 ED1 ED2 RS R AA AB AC AT LA LB LC LD DA DB DC DD DT
    S1 S2 S3 S4 S5 S6 S7 S8 S9 S10 S11 S12 S13.
  assert (IN : forall x, In x [m; n; k; bm_spacing A; bm_spacing B; bm_spacing C; bm_spacing dst'] -> int_range x) by (unfold ints in R; rewrite Forall_forall in R; exact R).
  unfold blaze_product.
  destruct (C55_construct T al adA A s) as (s1 & QA & E1 & _ & _ & V1 & W1); auto; try (apply IN; cbn; tauto).
  rewrite E1. cbn [bind fst snd].
  destruct (C55_construct T al adB B s1) as (s2 & QB & E2 & _ & _ & V2 & W2); auto; rewrite ?EB; auto; try (apply IN; cbn; tauto).
  rewrite E2. cbn [bind fst snd].
  destruct (C55_construct T al adC C s2) as (s3 & QC & E3 & _ & _ & V3 & W3); auto; rewrite ?EC1, ?EC2; auto; try (apply IN; cbn; tauto).
  rewrite E3. cbn [bind fst snd]. fold m n k. rewrite EB in *. rewrite EC1, EC2 in *.
  assert (Z : int_range 0) by (unfold int_range; lia).
  assert (WA : forall i l, i < m -> l < k -> window QA 0 0 i l = adA i l) by (intros i l Hi Hl; unfold window; apply V1; auto).
  assert (WB : forall l j, l < k -> j < n -> window QB 0 0 l j = adB l j) by (intros l j Hl Hj; unfold window; apply V2; auto).
  assert (WC : forall i j, i < m -> j < n -> window QC 0 0 i j = adC i j) by (intros i j Hi Hj; unfold window; apply V3; auto).
  destruct (C65_gemm_nn T O al m n k alpha QA 0 0 QB 0 0 beta QC 0 0 sD 0 0 s3) as (s4 & E4 & U1 & _); auto.
  - repeat apply Forall_cons; auto; apply IN; cbn; tauto.
  - intros i j Hi Hj. rewrite WA by auto. auto.
  - intros i j Hi Hj. rewrite WB by auto. auto.
  - intros i j Hi Hj. rewrite WC by auto. auto.
  - intros i j i' j' Hi Hj Hi' Hj'. rewrite WA by auto. apply S10; auto.
  - intros i j i' j' Hi Hj Hi' Hj'. rewrite WB by auto. apply S11; auto.
  - intros i j i' j' [Hi Hj] [Hi' Hj']. rewrite WC by auto. intros X. exfalso. revert X. apply S12; auto.
  - rewrite E4. cbn [bind].
    destruct (C55_unpack T al sD dst dst' s4) as (s5 & E5 & X1 & X2 & X3 & _); rewrite ?ED1, ?ED2; auto; try (apply IN; cbn; tauto).
    exists s5. split; [exact E5|]. rewrite X1, X2. split; auto. split; auto. intros i j Hi Hj.
    rewrite X3 by (rewrite ED1, ED2; split; auto). change (sm_at sD i j) with (window sD 0 0 i j). rewrite U1 by (split; auto).
    rewrite WC by auto. f_equal; f_equal.
    + destruct (V3 i j Hi Hj) as [Y1 Y2]. rewrite <- Y1, Y2. rewrite W2, W1; auto.
    + apply sum_ext. intros l Hl. f_equal.
      * rewrite WA by auto. destruct (V1 i l Hi Hl) as [Y1 Y2]. rewrite W3, W2 by (intros; first [apply S8|apply S6]; auto). rewrite <- Y1, Y2. reflexivity.
      * rewrite WB by auto. destruct (V2 l j Hl Hj) as [Y1 Y2]. rewrite W3 by (intros; apply S9; auto). rewrite <- Y1, Y2. apply W1. intros; apply S2; auto.
Qed.
(** In exact arithmetic blast's gemm and the BLASFEO way give the same elements. *)
Theorem C65_agrees_with_blast : forall T (O : Ops T) SS al al' m n k alpha sA ai aj sB bi bj beta sC ci cj sD di dj (s : mem T) A' B' C' D' (t t' : mem T),
  let A := window sA ai aj in let B := window sB bi bj in let C := window sC ci cj in let D := window sD di dj in
  ring_laws O -> 0 < SS -> gemm_pre SS al' A' B' C' D' -> g_rows A' = m -> g_cols A' = k -> g_cols B' = n ->
  gemm SS T O al' alpha A' B' beta C' D' t = Ok t' ->
  (forall i l, i < m -> l < k -> t (g_addr SS A' i l) = s (A i l)) -> (forall l j, l < k -> j < n -> t (g_addr SS B' l j) = s (B l j)) ->
  (forall i j, i < m -> j < n -> t (g_addr SS C' i j) = s (C i j)) ->
  ints [m; n; k; ai; aj; bi; bj; ci; cj; di; dj] ->
  allocated al m k A -> allocated al k n B -> allocated al m n C -> allocated al m n D -> distinct m n D ->
  separate m k A m n D -> separate k n B m n D -> source_or_apart (block m n) C D ->
  exists s', gemm_nn T O al m n k alpha sA ai aj sB bi bj beta sC ci cj sD di dj s = Ok s' /\
    forall i j, i < m -> j < n -> s' (D i j) = t' (g_addr SS D' i j).
Proof.
  intros T O SS al al' m n k alpha sA ai aj sB bi bj beta sC ci cj sD di dj s A' B' C' D' t t' A B C D RL HSS P G1 G2 G3 EG HA HB HC R AA AB AC AD DD SA SB SC.
  destruct (C65_gemm_nn T O al m n k alpha sA ai aj sB bi bj beta sC ci cj sD di dj s) as (s' & E & U & _); auto.
  exists s'. split; [exact E|]. intros i j Hi Hj. fold D in U. rewrite U by (split; auto).
  destruct (C18_gemm_ring SS T O al' alpha A' B' beta C' D' t HSS RL P) as (t1 & Et & V & _).
  assert (t1 = t') as -> by congruence. rewrite V by (split; lia).
  rewrite (rl_add_comm O RL). rewrite HC by auto. f_equal. f_equal. rewrite G2. apply sum_ext. intros l Hl. rewrite HA, HB by auto. reflexivity.
Qed.

(** syrk_ln of float matrices takes double factors and rounds them to single precision: alpha = 1 + 2^-30, a double, acts as 1.
    Here A and B are the 1-by-1 matrix (1), C is (0). *)
Definition to_float (x : R) : R := round radix2 (FLT_exp (-149) 24) ZnearestE x.
Lemma to_float_small : to_float (1 + / 2 ^ 30) = 1%R.
Proof.
  assert (E30 : (2 ^ 30 = 1073741824)%R) by (cbn; lra). rewrite E30.
  unfold to_float, round, scaled_mantissa.
  assert (C : cexp radix2 (FLT_exp (-149) 24) (1 + / 1073741824) = (-23)%Z).
  { unfold cexp. rewrite (mag_unique radix2 _ 1). { reflexivity. } rewrite Rabs_right by lra. cbn. lra. }
  rewrite C. rewrite (Znearest_imp _ _ 8388608).
  - unfold F2R. cbn [Fnum Fexp]. change (bpow radix2 (-23)) with (/ 8388608)%R. lra.
  - change (bpow radix2 (- -23)) with 8388608%R. rewrite Rabs_right; lra.
Qed.
Theorem C65_syrk_alpha_refuted : let alpha := (1 + / 2 ^ 30)%R in let one ad := SMat 1 1 (fun _ _ => ad) in
  let s := fun a : nat => if a =? 0 then 1%R else 0%R in
  generic_format radix2 (FLT_exp (-1074) 53) alpha /\
  exists s', syrk_ln R rops (fun _ => true) to_float 1 1 alpha (one 0) 0 0 (one 0) 0 0 1%R (one 1) 0 0 (one 2) 0 0 s = Ok s' /\
    s' 2 = 1%R /\ (1 * s 1%nat + alpha * (s 0%nat * s 0%nat) <> s' 2%nat)%R.
Proof.
  intros alpha one s.
  assert (E30 : (2 ^ 30 = 1073741824)%R) by (cbn; lra). split.
  - apply generic_format_FLT. apply (FLT_spec radix2 (-1074) 53 alpha (Float radix2 1073741825 (-30))).
    + unfold F2R, alpha. rewrite E30. cbn [Fnum Fexp]. change (bpow radix2 (-30)) with (/ 1073741824)%R. lra.
    + cbn. lia.
    + cbn. lia.
  - assert (T1 : to_float 1 = 1%R).
    { unfold to_float. apply round_generic; [apply valid_rnd_N|]. apply generic_format_FLT. apply (FLT_spec radix2 (-149) 24 1 (Float radix2 1 0)).
      + unfold F2R. cbn. lra. + cbn. lia. + cbn. lia. }
    destruct (C65_syrk_ln R rops (fun _ => true) R to_float 1 1 alpha (one 0) 0 0 (one 0) 0 0 1%R (one 1) 0 0 (one 2) 0 0 s) as (s' & E & U & _).
    + repeat constructor; unfold int_range; lia.
    + intros ? ? ? ?; reflexivity. + intros ? ? ? ?; reflexivity. + intros ? ? ? ?; reflexivity. + intros ? ? ? ?; reflexivity.
    + intros ? ? ? ? ? ? ? ? _. lia.
    + intros ? ? ? ? ? ? ? ?. discriminate. + intros ? ? ? ? ? ? ? ?. discriminate. + intros ? ? ? ? ? ? X. discriminate X.
    + exists s'. split; [exact E|]. specialize (U 0 0 ltac:(unfold lower; lia)). cbn [window sm_at one] in U.
      rewrite T1 in U. unfold alpha in U. rewrite to_float_small in U. cbn [sum oadd omul o0 rops Nat.add] in U. cbv [s window sm_at one Nat.eqb Nat.add] in *.
      assert (V : s' 2 = 1%R) by (rewrite U; lra). split; [exact V|]. rewrite V. unfold alpha. rewrite E30. lra.
Qed.

(* ------------------------------------------------------------------ examples *)
(** 2-by-2 windows at (1, 1) of 4-by-4 matrices of integers: hypotheses and results. *)
Definition bf_mat (b : nat) : smat := SMat 4 4 (fun i j => b + i + 4 * j).
Definition bf_mem : mem Z := fun a => (Z.of_nat a mod 7 - 3)%Z.
Definition bf_show (r : res (mem Z)) : list Z := match r with Ok s => map (fun p => s (48 + (1 + fst p) + 4 * (1 + snd p))) [(0, 0); (1, 0); (0, 1); (1, 1)] | _ => [] end.
Definition bf_in (b i j : nat) : Z := bf_mem (b + (1 + i) + 4 * (1 + j)).
Example C65_example_windows : let al := fun a => a <? 64 in let A := window (bf_mat 0) 1 1 in let B := window (bf_mat 16) 1 1 in let C := window (bf_mat 32) 1 1 in let D := window (bf_mat 48) 1 1 in
  ints [2; 2; 2; 1; 1; 1; 1; 1; 1; 1; 1] /\ allocated al 2 2 A /\ allocated al 2 2 B /\ allocated al 2 2 C /\ allocated al 2 2 D /\ distinct 2 2 D /\
  separate 2 2 A 2 2 D /\ separate 2 2 B 2 2 D /\ source_or_apart (block 2 2) C D /\ source_or_apart (block 2 2) D D /\ source_or_apart (lower 2 2) C D.
Proof.
  unfold window, bf_mat, block, lower. cbn [sm_at].
  repeat split; try (red; intros); try (apply Nat.ltb_lt); try lia.
  repeat constructor; unfold int_range; lia.
Qed.
Example C65_example_gemm : let al := fun a => a <? 64 in let f g := bf_show (g 2 2 2 2%Z (bf_mat 0) 1 1 (bf_mat 16) 1 1 3%Z (bf_mat 32) 1 1 (bf_mat 48) 1 1 bf_mem) in
  let expect a b := map (fun p => 3 * bf_in 32 (fst p) (snd p) + 2 * (a (fst p) 0%nat * b 0%nat (snd p) + a (fst p) 1%nat * b 1%nat (snd p)))%Z [(0, 0); (1, 0); (0, 1); (1, 1)] in
  f (gemm_nn Z zops al) = expect (bf_in 0) (bf_in 16) /\ f (gemm_tn Z zops al) = expect (fun i j => bf_in 0 j i) (bf_in 16) /\
  f (gemm_nt Z zops al) = expect (bf_in 0) (fun i j => bf_in 16 j i).
Proof. vm_compute. repeat split. Qed.
Example C65_example_tri : let al := fun a => a <? 64 in
  bf_show (syrk_ln Z zops al (fun x => x) 2 2 1%Z (bf_mat 0) 1 1 (bf_mat 16) 1 1 1%Z (bf_mat 32) 1 1 (bf_mat 48) 1 1 bf_mem) =
    [bf_in 32 0 0 + (bf_in 0 0 0 * bf_in 16 0 0 + bf_in 0 0 1 * bf_in 16 0 1); bf_in 32 1 0 + (bf_in 0 1 0 * bf_in 16 0 0 + bf_in 0 1 1 * bf_in 16 0 1);
     bf_in 48 0 1; bf_in 32 1 1 + (bf_in 0 1 0 * bf_in 16 1 0 + bf_in 0 1 1 * bf_in 16 1 1)]%Z /\
  bf_show (trmm_rlnn Z zops al 2 2 1%Z (bf_mat 0) 1 1 (bf_mat 16) 1 1 (bf_mat 48) 1 1 bf_mem) =
    [bf_in 16 0 0 * bf_in 0 0 0 + bf_in 16 0 1 * bf_in 0 1 0; bf_in 16 1 0 * bf_in 0 0 0 + bf_in 16 1 1 * bf_in 0 1 0; bf_in 16 0 1 * bf_in 0 1 1; bf_in 16 1 1 * bf_in 0 1 1]%Z /\
  bf_show (trmm_rutn Z zops al 2 2 1%Z (bf_mat 0) 1 1 (bf_mat 16) 1 1 (bf_mat 48) 1 1 bf_mem) =
    [bf_in 16 0 0 * bf_in 0 0 0 + bf_in 16 0 1 * bf_in 0 0 1; bf_in 16 1 0 * bf_in 0 0 0 + bf_in 16 1 1 * bf_in 0 0 1; bf_in 16 0 1 * bf_in 0 1 1; bf_in 16 1 1 * bf_in 0 1 1]%Z.
Proof. vm_compute. repeat split. Qed.
(** The matrix (2 1; 1 2) meets the hypotheses of potrf, in place. *)
Example C65_example_potrf : let D := window (bf_mat 48) 1 1 in
  pos_def 2 (fun i j => if i =? j then 2%R else 1%R) /\ source_or_apart (lower 2 2) D D /\ distinct 2 2 D /\ ints [2; 1; 1; 1; 1].
Proof.
  split; [apply C28_example_pos_def|]. unfold window, bf_mat, lower. cbn [sm_at].
  split; [red; intros; lia|]. split; [red; intros; lia|]. repeat constructor; unfold int_range; lia.
Qed.
(** 1 x 1 matrices with inner dimension 2^31: D := 1 * 5 + 1 * 0, whatever A and B are. *)
Example C65_example_inner : let one ad := SMat 1 1 (fun _ _ => ad) in
  exists s', gemm_nn Z zops (fun _ => true) 1 1 (N.to_nat (2 ^ 31)) 1%Z (one 0) 0 0 (one 0) 0 0 1%Z (one 1) 0 0 (one 2) 0 0 (fun a => if a =? 1 then 5%Z else 7%Z) = Ok s' /\ s' 2 = 5%Z.
Proof.
  intros one.
  destruct (C65_int_inner_refuted Z zops (fun _ => true) 1 1 (N.to_nat (2 ^ 31)) 1%Z (one 0) 0 0 (one 0) 0 0 1%Z (one 1) 0 0 (one 2) 0 0
    (fun a => if a =? 1 then 5%Z else 7%Z)) as (s' & E & U & _).
  - rewrite N2Nat.id. vm_compute. discriminate.
  - repeat constructor; unfold int_range; lia.
  - intros ? ? ? ?; reflexivity.
  - intros ? ? ? ?; reflexivity.
  - intros ? ? ? ? ? ? ? ? _. lia.
  - intros ? ? ? ? ? ? X. discriminate X.
  - exists s'. split; [exact E|]. apply (U 0 0). unfold block. lia.
Qed.
