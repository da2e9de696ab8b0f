(** Footprint_Spec.v -- what it means that a call reads and writes certain addresses only; batches of calls. *)
From Coq Require Import List Permutation.
From Verif Require Import Base.
Import ListNotations.

Section Footprint.
Context {T : Type}.
(** A call together with the addresses its result may depend on, the addresses it may change, and those among the latter whose new contents are specified. *)
Record action := Action { a_op : mem T -> res (mem T); a_reads : nat -> Prop; a_writes : nat -> Prop; a_result : nat -> Prop }.

(** The call succeeds on every memory, leaves everything but its writes alone, and the contents of its result are determined by its reads. *)
Definition confined (c : action) : Prop :=
  (forall x, a_result c x -> a_writes c x) /\
  forall m1 m2 : mem T, (forall x, a_reads c x -> m1 x = m2 x) ->
    exists m1' m2', a_op c m1 = Ok m1' /\ a_op c m2 = Ok m2' /\
      (forall x, a_result c x -> m1' x = m2' x) /\ (forall x, ~ a_writes c x -> m1' x = m1 x) /\ (forall x, ~ a_writes c x -> m2' x = m2 x).

(** Neither call writes what the other one reads or writes. *)
Definition independent (c d : action) : Prop :=
  forall x, (a_writes c x -> ~ a_reads d x /\ ~ a_writes d x) /\ (a_writes d x -> ~ a_reads c x /\ ~ a_writes c x).

(** The calls one after the other. *)
Fixpoint in_order (l : list action) (m : mem T) : res (mem T) :=
  match l with [] => Ok m | c :: l => m <- a_op c m ;; in_order l m end.
End Footprint.

(** The addresses of the elements (i, j) of a matrix with P i j. *)
Definition cells (P : nat -> nat -> Prop) (ad : nat -> nat -> nat) (x : nat) : Prop := exists i j, P i j /\ x = ad i j.
