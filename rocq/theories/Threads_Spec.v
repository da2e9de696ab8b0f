(** Threads_Spec.v -- threads of calls and schedules.  A call (or one tile of a call) is one step; a schedule says which thread makes the next step. *)
From Coq Require Import Arith List PeanoNat.
From Verif Require Import Base Footprint_Spec.
Import ListNotations.

Section Threads.
Context {T : Type}.
Notation action := (@action T).
(** The steps every thread still has to make; thread t has made its next step. *)
Definition threads := nat -> list action.
Definition advance (ts : threads) (t : nat) (rest : list action) : threads := fun u => if u =? t then rest else ts u.
(** Running a schedule: the number of the thread that makes the next step; a thread that has finished does nothing. *)
Fixpoint scheduled (s : list nat) (ts : threads) (m : mem T) : res (threads * mem T) :=
  match s with
  | [] => Ok (ts, m)
  | t :: s => match ts t with
              | [] => scheduled s ts m
              | c :: rest => m <- a_op c m ;; scheduled s (advance ts t rest) m
              end
  end.
(** The addresses whose contents are specified after the steps l, if those in K were before: the results, and what was specified and has not been written. *)
Fixpoint specified (K : nat -> Prop) (l : list action) : nat -> Prop :=
  match l with [] => K | c :: l => specified (fun x => a_result c x \/ (K x /\ ~ a_writes c x)) l end.
(** Every step reads only addresses whose contents are specified (potrf, for instance, leaves unspecified values in the padding rows of its result). *)
Fixpoint reads_specified (K : nat -> Prop) (l : list action) : Prop :=
  match l with
  | [] => True
  | c :: l => (forall x, a_reads c x -> K x) /\ reads_specified (fun x => a_result c x \/ (K x /\ ~ a_writes c x)) l
  end.
(** Steps of different threads are independent. *)
Definition no_interference (ts : threads) : Prop :=
  forall t u c d, t <> u -> In c (ts t) -> In d (ts u) -> independent c d.
(** Address x belongs to thread t: no other thread writes it. *)
Definition owned (ts : threads) (t x : nat) : Prop := forall u d, u <> t -> In d (ts u) -> ~ a_writes d x.
End Threads.
