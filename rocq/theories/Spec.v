(** Spec.v -- the independent specification vocabulary used by the property theorems.
    Nothing in this file refers to the model of the code except the semantic domains of Base.v
    (outcomes, scalar operations, memory). *)
From Coq Require Import Arith List Bool PeanoNat.
From Verif Require Import Base.
Import ListNotations.

(** An m-by-n matrix stored in memory: the address of each element. *)
Definition locations := nat -> nat -> nat.

(** Different elements of an m-by-n matrix have different addresses. *)
Definition distinct (m n : nat) (ad : locations) : Prop :=
  forall i j i' j', i < m -> j < n -> i' < m -> j' < n -> ad i j = ad i' j' -> i = i' /\ j = j'.

(** All elements of an m-by-n matrix are in allocated memory. *)
Definition allocated (al : alloc) (m n : nat) (ad : locations) : Prop :=
  forall i j, i < m -> j < n -> al (ad i j) = true.

(** No element of the first matrix shares an address with an element of the second. *)
Definition separate (m n : nat) (ad : locations) (m' n' : nat) (ad' : locations) : Prop :=
  forall i j i' j', i < m -> j < n -> i' < m' -> j' < n' -> ad i j <> ad' i' j'.

(** Memory [mem'] is [mem] except that the elements (i,j) satisfying P of the matrix at [ad] have the
    values [e i j]. *)
Definition updated {T} (P : nat -> nat -> Prop) (ad : locations) (e : nat -> nat -> T) (mem mem' : mem T) : Prop :=
  (forall i j, P i j -> mem' (ad i j) = e i j) /\
  (forall a, (forall i j, P i j -> a <> ad i j) -> mem' a = mem a).

(** The whole m-by-n matrix / its lower trapezoid. *)
Definition block (m n i j : nat) : Prop := i < m /\ j < n.
Definition lower (m n i j : nat) : Prop := j <= i /\ i < m /\ j < n.

(** A fragment writes: it succeeds from every memory and its effect is [updated]. *)
Definition writes {T} (f : mem T -> res (mem T)) (P : nat -> nat -> Prop) (ad : locations) (e : nat -> nat -> T) : Prop :=
  forall m, exists m', f m = Ok m' /\ updated P ad e m m'.

Section Algebra.
Context {T : Type} (O : Ops T).

(** s := z; for k = 0..K-1: s := fma(x k, y k, s) *)
Fixpoint fma_chain (K : nat) (x y : nat -> T) (z : T) : T :=
  match K with
  | 0 => z
  | S k => ofma O (x k) (y k) (fma_chain k x y z)
  end.

(** s := z; for k = 0..K-1: s := fnma(x k, y k, s), i.e. s - x k * y k *)
Fixpoint fnma_chain (K : nat) (x y : nat -> T) (z : T) : T :=
  match K with
  | 0 => z
  | S k => ofnma O (x k) (y k) (fnma_chain k x y z)
  end.

(** s := z; for k = 0..K-1: s := s - x k * y k, product and difference rounded separately *)
Fixpoint sub_chain (K : nat) (x y : nat -> T) (z : T) : T :=
  match K with
  | 0 => z
  | S k => osub O (sub_chain k x y z) (omul O (x k) (y k))
  end.

(** s := z; for k = 0..K-1: s := s + x k * y k, product and sum rounded separately *)
Fixpoint add_chain (K : nat) (x y : nat -> T) (z : T) : T :=
  match K with
  | 0 => z
  | S k => oadd O (add_chain k x y z) (omul O (x k) (y k))
  end.

(** sum_{k<K} f k *)
Fixpoint sum (K : nat) (f : nat -> T) : T :=
  match K with
  | 0 => o0 O
  | S k => oadd O (sum k f) (f k)
  end.

(** Exact commutative-ring arithmetic: fma without rounding, the usual laws. *)
Record ring_laws : Prop := {
  rl_add_comm : forall a b, oadd O a b = oadd O b a;
  rl_add_assoc : forall a b c, oadd O a (oadd O b c) = oadd O (oadd O a b) c;
  rl_add_0 : forall a, oadd O (o0 O) a = a;
  rl_mul_comm : forall a b, omul O a b = omul O b a;
  rl_mul_assoc : forall a b c, omul O a (omul O b c) = omul O (omul O a b) c;
  rl_mul_1 : forall a, omul O (o1 O) a = a;
  rl_distr : forall a b c, omul O (oadd O a b) c = oadd O (omul O a c) (omul O b c);
  rl_sub : forall a b, oadd O (osub O a b) b = a;
  rl_sub_def : forall a b, osub O a b = oadd O a (omul O (om1 O) b);
  rl_neg : oadd O (o1 O) (om1 O) = o0 O;
  rl_fma : forall a b c, ofma O a b c = oadd O (omul O a b) c;
  rl_fnma : forall a b c, ofnma O a b c = osub O c (omul O a b)
}.

(** Exact field arithmetic. *)
Record field_laws : Prop := {
  fl_ring : ring_laws;
  fl_div : forall a b, b <> o0 O -> omul O (odiv O a b) b = a;
  fl_1_0 : o1 O <> o0 O
}.
End Algebra.

(** Row interchanges: row i of the matrix after exchanging rows p and q is row [interchange p q i] of the matrix before. *)
Definition interchange (p q i : nat) : nat := if i =? p then q else if i =? q then p else i.
(** The matrix [a] after exchanging rows l and ipiv l, for l = k0, ..., k0+n-1 in this order. *)
Fixpoint interchanged {T} (ipiv : nat -> nat) (k0 n : nat) (a : nat -> nat -> T) : nat -> nat -> T :=
  match n with
  | 0 => a
  | S l => fun i j => interchanged ipiv k0 l a (interchange (k0 + l) (ipiv (k0 + l)) i) j
  end.

Section Pivot.
Context {T : Type} (O : Ops T).
(** r is the first position of the largest magnitude among x 0, ..., x (n-1). *)
Definition first_max (n : nat) (x : nat -> T) (r : nat) : Prop :=
  r < n /\ (forall j, j < n -> oltb O (oabs O (x r)) (oabs O (x j)) = false) /\
  (forall j, j < r -> oltb O (oabs O (x j)) (oabs O (x r)) = true).
(** The position found by going through x 0, ..., x (n-1) and taking every element that is strictly larger in magnitude than the last one taken
    (a comparison with NaN is false: a NaN is never taken, and nothing is taken after a NaN at position 0). *)
Fixpoint running_max (n : nat) (x : nat -> T) : nat :=
  match n with
  | 0 => 0
  | S i => let r := running_max i x in if oltb O (oabs O (x r)) (oabs O (x i)) then i else r
  end.
(** The magnitudes of x 0, ..., x (n-1) are comparable: a strict weak order (IEEE arithmetic: none of them is a NaN). *)
Definition comparable (n : nat) (x : nat -> T) : Prop :=
  let lt i j := oltb O (oabs O (x i)) (oabs O (x j)) in
  (forall i, i < n -> lt i i = false) /\
  (forall i j k, i < n -> j < n -> k < n -> lt i j = true -> lt j k = true -> lt i k = true) /\
  (forall i j k, i < n -> j < n -> k < n -> lt i j = false -> lt j k = false -> lt i k = false).
(** The unit lower and the upper trapezoidal factors stored in one matrix. *)
Definition unit_lower (a : nat -> nat -> T) (i l : nat) : T := if l <? i then a i l else if l =? i then o1 O else o0 O.
Definition upper_trap (a : nat -> nat -> T) (l j : nat) : T := if l <=? j then a l j else o0 O.
End Pivot.

(** Comparison of magnitudes is a strict weak order (IEEE arithmetic: when no NaN occurs). *)
Definition magnitudes_ordered {T} (O : Ops T) : Prop :=
  (forall a, oltb O (oabs O a) (oabs O a) = false) /\
  (forall a b c, oltb O (oabs O a) (oabs O b) = true -> oltb O (oabs O b) (oabs O c) = true -> oltb O (oabs O a) (oabs O c) = true) /\
  (forall a b c, oltb O (oabs O a) (oabs O b) = false -> oltb O (oabs O b) (oabs O c) = false -> oltb O (oabs O a) (oabs O c) = false).

(** Magnitudes of exact ordered arithmetic. *)
Record exact_order {T} (O : Ops T) : Prop := {
  eo_mag : magnitudes_ordered O;
  eo_eqb : forall a b, oeqb O a b = true <-> a = b;
  eo_abs : forall a, a <> o0 O -> oltb O (oabs O (o0 O)) (oabs O a) = true;
  eo_div : forall a b, b <> o0 O -> oltb O (oabs O b) (oabs O a) = false -> oltb O (oabs O (o1 O)) (oabs O (odiv O a b)) = false
}.
(** Exact arithmetic of an ordered field. *)
Definition exact_arith {T} (O : Ops T) : Prop := field_laws O /\ exact_order O.

(** The first n columns of the M-row matrix A are linearly dependent. *)
Definition dependent_columns {T} (O : Ops T) (M n : nat) (A : nat -> nat -> T) : Prop :=
  exists x, (exists j, j < n /\ x j <> o0 O) /\ forall i, i < M -> sum O n (fun j => omul O (A i j) (x j)) = o0 O.

(** F and ipiv hold a pivoted LU factorisation of the M-by-N matrix A: the row interchanges recorded in ipiv turn A into L * U, L unit lower
    trapezoidal with multipliers at most one, U upper trapezoidal with a non-zero diagonal. *)
Definition lu_factorisation {T} (O : Ops T) (M N : nat) (A F : nat -> nat -> T) (ipiv : nat -> nat) : Prop :=
  (forall l, l < min M N -> l <= ipiv l < M) /\
  (forall l, l < min M N -> F l l <> o0 O) /\
  (forall i l, l < min M N -> l < i < M -> oltb O (oabs O (o1 O)) (oabs O (F i l)) = false) /\
  (forall i j, i < M -> j < N ->
     interchanged ipiv 0 (min M N) A i j = sum O (min M N) (fun l => omul O (unit_lower O F i l) (upper_trap O F l j))).
(** The interchanges of [interchanged] undone, in reverse order. *)
Fixpoint interchanged_back {T} (ipiv : nat -> nat) (k0 n : nat) (a : nat -> nat -> T) : nat -> nat -> T :=
  match n with
  | 0 => a
  | S l => interchanged_back ipiv k0 l (fun i j => a (interchange (k0 + l) (ipiv (k0 + l)) i) j)
  end.
