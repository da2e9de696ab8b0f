(** Properties_Print.v -- C80: printing a matrix. *)
From Coq Require Import List Ascii Arith Lia Bool PeanoNat ZArith.
From Verif Require Import Base Base_Proofs Spec Instances Layout_Model Layout_Proofs Gemm_Model Print_Model.
Import ListNotations.

(** Reading a printed text: the pieces that are ended by the character [c], and what is left after the last one. *)
Fixpoint pieces (c : ascii) (t cur : text) : list text * text :=
  match t with
  | [] => ([], cur)
  | x :: r => if Ascii.eqb x c then let '(l, e) := pieces c r [] in (cur :: l, e) else pieces c r (cur ++ [x])
  end.
Definition lines (t : text) : list text * text := pieces newline t [].
Definition fields (t : text) : list text * text := pieces tab t [].
(** The table of a matrix: one list per row. *)
Definition table {X} (M N : nat) (f : nat -> nat -> X) : list (list X) := map (fun i => map (f i) (seq 0 N)) (seq 0 M).
(** The elements are written without tabs and newlines (as numbers are). *)
Definition plain {T} (show : T -> text) : Prop := forall x, ~ In tab (show x) /\ ~ In newline (show x).

Lemma pieces_run : forall c s t cur, ~ In c s -> pieces c (s ++ c :: t) cur = (let '(l, e) := pieces c t [] in ((cur ++ s) :: l, e)).
Proof.
  intros c s. induction s as [|x s IH]; intros t cur Hn; cbn [app pieces].
  - rewrite Ascii.eqb_refl, app_nil_r. reflexivity.
  - destruct (Ascii.eqb_spec x c) as [->|_]; [exfalso; apply Hn; left; reflexivity|].
    rewrite IH by (intros H; apply Hn; right; exact H). rewrite <- app_assoc. reflexivity.
Qed.
Lemma pieces_all : forall c l, Forall (fun s => ~ In c s) l -> pieces c (concat (map (fun s => s ++ [c]) l)) [] = (l, []).
Proof.
  intros c l H. induction H as [|s l Hs _ IH]; [reflexivity|]. cbn [map concat]. rewrite <- app_assoc. cbn [app].
  rewrite pieces_run by auto. rewrite IH. reflexivity.
Qed.
Lemma map_seq_S : forall X (f : nat -> X) n, map f (seq 0 (S n)) = map f (seq 0 n) ++ [f n].
Proof. intros X f n. rewrite seq_S, map_app. reflexivity. Qed.

Section Printed.
Variables (SS : nat) (T : Type) (show : T -> text).
Definition row_text (ws : list text) : text := concat (map (fun s => s ++ [tab]) ws).
Lemma print_ok : forall al a (m : mem T) os, allocated al (g_rows a) (g_cols a) (g_addr SS a) ->
  print_matrix SS T show al a m os = Ok (os ++ concat (map (fun s => s ++ [newline]) (map row_text (table (g_rows a) (g_cols a) (fun i j => show (m (g_addr SS a i j))))))).
Proof.
  intros al a m os Ha. unfold print_matrix.
  destruct (for_inv text (fun i s => s = os ++ concat (map (fun s => s ++ [newline]) (map row_text (table i (g_cols a) (fun i j => show (m (g_addr SS a i j)))))))
    0 (g_rows a) (fun i os => os <- for_ 0 (g_cols a) (fun j os => x <- rd al m (g_addr SS a i j) ;; Ok ((os ++ show x) ++ [tab])) os ;; Ok (os ++ [newline])) os) as (t & E & P).
  - lia.
  - cbn. rewrite app_nil_r. reflexivity.
  - intros i s0 Hi Es.
    destruct (for_inv text (fun j s => s = s0 ++ row_text (map (fun j => show (m (g_addr SS a i j))) (seq 0 j)))
      0 (g_cols a) (fun j os => x <- rd al m (g_addr SS a i j) ;; Ok ((os ++ show x) ++ [tab])) s0) as (t & E & P).
    + lia.
    + cbn. rewrite app_nil_r. reflexivity.
    + intros j s Hj ->. unfold rd. rewrite Ha by lia. cbn [bind]. eexists. split; [reflexivity|].
      rewrite map_seq_S. unfold row_text. rewrite map_app, concat_app. cbn [map concat]. rewrite app_nil_r, !app_assoc. reflexivity.
    + rewrite E. cbn [bind]. eexists. split; [reflexivity|]. rewrite P, Es. unfold table. rewrite map_seq_S, !map_app, concat_app. cbn [map concat].
      rewrite app_nil_r, !app_assoc. reflexivity.
  - rewrite E, P. reflexivity.
Qed.
Lemma row_text_clean : forall l, Forall (fun s => ~ In newline s) l -> ~ In newline (row_text l).
Proof.
  intros l H. unfold row_text. induction H as [|s l Hs _ IH]; [auto|]. cbn [map concat]. rewrite !in_app_iff.
  intros [[X|X]|X]; auto. destruct X as [X|[]]. discriminate X.
Qed.
End Printed.

(** Any matrix, window or transposed view whose elements may be read is printed without an error; the text follows what the stream already holds, and reading it
    line by line and field by field gives the elements row by row, with nothing left over. *)
Theorem C80_print : forall SS T show al a (m : mem T) os, plain show -> allocated al (g_rows a) (g_cols a) (g_addr SS a) ->
  exists t, print_matrix SS T show al a m os = Ok (os ++ t) /\ snd (lines t) = [] /\
    map fields (fst (lines t)) = map (fun r => (r, [])) (table (g_rows a) (g_cols a) (fun i j => show (m (g_addr SS a i j)))).
Proof.
  intros SS T show al a m os Hs Ha. eexists. split; [apply print_ok; auto|].
  set (tb := table _ _ _). assert (W : Forall (Forall (fun s => ~ In tab s /\ ~ In newline s)) tb).
  { unfold tb, table. apply Forall_forall. intros r Hr. apply in_map_iff in Hr. destruct Hr as (i & <- & _). apply Forall_forall. intros s H.
    apply in_map_iff in H. destruct H as (j & <- & _). apply Hs. }
  clearbody tb. unfold lines. rewrite pieces_all.
  - cbn [fst snd]. split; [reflexivity|]. rewrite map_map. apply map_ext_in. intros r Hr. unfold fields, row_text. apply pieces_all.
    rewrite Forall_forall in W. specialize (W r Hr). revert W. apply Forall_impl. tauto.
  - apply Forall_forall. intros s H. apply in_map_iff in H. destruct H as (r & <- & Hr). apply row_text_clean.
    rewrite Forall_forall in W. specialize (W r Hr). revert W. apply Forall_impl. tauto.
Qed.
(** The text does not depend on where and how the matrix is stored: matrices of any kind, storage order and alignment, windows and transposed views with the same
    sizes and elements are printed alike, whatever the padding contains. *)
Theorem C80_layout_independent : forall SS SS' T (show : T -> text) al al' a b (m m' : mem T) os,
  allocated al (g_rows a) (g_cols a) (g_addr SS a) -> allocated al' (g_rows b) (g_cols b) (g_addr SS' b) ->
  g_rows a = g_rows b -> g_cols a = g_cols b -> (forall i j, i < g_rows a -> j < g_cols a -> m (g_addr SS a i j) = m' (g_addr SS' b i j)) ->
  print_matrix SS T show al a m os = print_matrix SS' T show al' b m' os.
Proof.
  intros SS SS' T show al al' a b m m' os Ha Hb E1 E2 E. rewrite !print_ok by auto. rewrite <- E1, <- E2. do 5 f_equal. unfold table.
  apply map_ext_in. intros i Hi. apply in_seq in Hi. apply map_ext_in. intros j Hj. apply in_seq in Hj. rewrite E by lia. reflexivity.
Qed.
(** The text identifies the matrix: if different elements are written differently, then matrices with the same text have the same numbers of rows and, unless there
    are no rows, of columns, and the same elements. *)
Theorem C80_text_identifies : forall SS T (show : T -> text) al a b (m m' : mem T) t, plain show -> (forall x y, show x = show y -> x = y) ->
  allocated al (g_rows a) (g_cols a) (g_addr SS a) -> allocated al (g_rows b) (g_cols b) (g_addr SS b) ->
  print_matrix SS T show al a m [] = Ok t -> print_matrix SS T show al b m' [] = Ok t ->
  g_rows a = g_rows b /\ (0 < g_rows a -> g_cols a = g_cols b) /\
  forall i j, i < g_rows a -> j < g_cols a -> m (g_addr SS a i j) = m' (g_addr SS b i j).
Proof.
  intros SS T show al a b m m' t Hs Hi Ha Hb E1 E2.
  destruct (C80_print SS T show al a m [] Hs Ha) as (t1 & F1 & _ & G1). destruct (C80_print SS T show al b m' [] Hs Hb) as (t2 & F2 & _ & G2).
  cbn [app] in F1, F2. assert (t1 = t2) by congruence. subst t2. rewrite G1 in G2. clear t1 F1 F2 G1 E1 E2 Ha Hb.
  assert (G : table (g_rows a) (g_cols a) (fun i j => show (m (g_addr SS a i j))) = table (g_rows b) (g_cols b) (fun i j => show (m' (g_addr SS b i j)))).
  { apply (f_equal (map fst)) in G2. rewrite !map_map in G2. cbn [fst] in G2. rewrite !map_id in G2. exact G2. }
  clear G2. assert (L : g_rows a = g_rows b) by (apply (f_equal (@length _)) in G; unfold table in G; rewrite !map_length, !seq_length in G; exact G).
  assert (Q : forall X M N (f : nat -> nat -> X) i d, i < M -> nth i (table M N f) d = map (f i) (seq 0 N)).
  { intros X M N f i d Hm. unfold table. rewrite (nth_indep _ d (map (f 0) (seq 0 N))) by (rewrite map_length, seq_length; auto).
    rewrite (map_nth (fun i => map (f i) (seq 0 N)) (seq 0 M) 0), seq_nth by auto. reflexivity. }
  assert (R : forall i, i < g_rows a -> map (fun j => show (m (g_addr SS a i j))) (seq 0 (g_cols a)) = map (fun j => show (m' (g_addr SS b i j))) (seq 0 (g_cols b))).
  { intros i Hm. apply (f_equal (fun l => nth i l [])) in G. rewrite !Q in G by lia. exact G. }
  split; [exact L|]. split.
  - intros H. specialize (R 0 H). apply (f_equal (@length _)) in R. rewrite !map_length, !seq_length in R. exact R.
  - intros i j Hm Hj. specialize (R i Hm). assert (C : g_cols a = g_cols b) by (apply (f_equal (@length _)) in R; rewrite !map_length, !seq_length in R; exact R).
    rewrite <- C in R. apply Hi. apply (f_equal (fun l => nth j l [])) in R.
    rewrite !(nth_indep _ [] (show (m (g_addr SS a i 0)))) in R by (rewrite map_length, seq_length; auto).
    rewrite (map_nth (fun j => show (m (g_addr SS a i j)))) in R.
    rewrite (nth_indep _ _ (show (m' (g_addr SS b i 0)))) in R by (rewrite map_length, seq_length; auto).
    rewrite (map_nth (fun j => show (m' (g_addr SS b i j)))), !seq_nth in R by auto. exact R.
Qed.
(** Numbers written in unary, a 2 x 3 column-major panel matrix and its transpose. *)
Definition unary (x : nat) : text := repeat (ascii_of_nat 49) x.
Example C80_example : let c := MArg (whole (Cont Panel false columnMajor 2 3 0)) false in let c' := MArg (whole (Cont Panel false columnMajor 2 3 0)) true in
  plain unary /\ (forall x y, unary x = unary y -> x = y) /\ allocated (fun a => a <? 12) (g_rows c) (g_cols c) (g_addr 4 c) /\
  match print_matrix 4 nat unary (fun a => a <? 12) c (fun a => a / 2) [] with Ok t => map nat_of_ascii t = [9; 49; 49; 9; 49; 49; 49; 49; 9; 10; 9; 49; 49; 9; 49; 49; 49; 49; 9; 10] | _ => False end /\
  match print_matrix 4 nat unary (fun a => a <? 12) c' (fun a => a / 2) [] with Ok t => map nat_of_ascii t = [9; 9; 10; 49; 49; 9; 49; 49; 9; 10; 49; 49; 49; 49; 9; 49; 49; 49; 49; 9; 10] | _ => False end.
Proof.
  cbv zeta. split; [|split; [|split; [|split]]].
  - intros x. unfold unary. split; intros H; apply repeat_spec in H; discriminate H.
  - intros x y H. apply (f_equal (@length _)) in H. unfold unary in H. rewrite !repeat_length in H. exact H.
  - intros i j Hi Hj. cbn in Hi, Hj. destruct i as [|[|]]; [| |lia]; destruct j as [|[|[|]]]; reflexivity || lia.
  - vm_compute. reflexivity.
  - vm_compute. reflexivity.
Qed.
