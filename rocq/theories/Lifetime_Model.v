(** Lifetime_Model.v -- who owns which buffer: blasfeo::detail::AlignedStorage, blasfeo::DynamicMatrix, and the dynamically
    allocated matrices of blast.  Paths are relative to /repo/include. *)
From Coq Require Import Arith List Bool PeanoNat.
From Verif Require Import Base.
Import ListNotations.

(** How a buffer was obtained. *)
Inductive akind := Malloc | AlignedNew.
Inductive event := Allocated (a : nat) | Freed (a : nat).

(** Objects are numbered; [objs x] is None if there is no object x (not yet constructed, or destroyed) and Some p if there is one
    and its pointer member is p, where None stands for nullptr.  [heap a] is the kind of the allocated buffer at a, if any.
    [log] records the calls of the allocator, latest first. *)
Record lstate := LState { objs : nat -> option (option nat); heap : nat -> option akind; log : list event }.
Definition set_obj (s : lstate) (x : nat) (o : option (option nat)) : lstate :=
  LState (fun y => if y =? x then o else objs s y) (heap s) (log s).
Definition empty_state : lstate := LState (fun _ => None) (fun _ => None) [].

(** The allocator returns address [a]; that it is not null and not in use is a property of the allocator (see [allocator_ok]). *)
Definition allocate (k : akind) (a : nat) (s : lstate) : lstate :=
  LState (objs s) (fun b => if b =? a then Some k else heap s b) (Allocated a :: log s).
(** Deallocation: of nullptr no effect, of an address that is not allocated (e.g. a second time) undefined behaviour, and also
    of a buffer the deallocation function is not made for. *)
Definition deallocate (fits : akind -> bool) (p : option nat) (s : lstate) : res lstate :=
  match p with
  | None => Ok s
  | Some a => match heap s a with
              | Some k => if fits k then Ok (LState (objs s) (fun b => if b =? a then None else heap s b) (Freed a :: log s)) else UB
              | None => UB
              end
  end.

(** Access to the pointer of a living object; a destroyed object must not be used. *)
Definition pointer (s : lstate) (x : nat) : res (option nat) :=
  match objs s x with Some p => Ok p | None => UB end.
(** Construction of object x with pointer p in unused storage. *)
Definition construct (s : lstate) (x : nat) (p : option nat) : res lstate :=
  match objs s x with None => Ok (set_obj s x (Some p)) | Some _ => UB end.
Definition destroy (fits : akind -> bool) (s : lstate) (x : nat) : res lstate :=
  p <- pointer s x ;; s <- deallocate fits p s ;; Ok (set_obj s x None).

(* ------------------------------------------------------------------------------------------ *)
(** ** blasfeo::detail::AlignedStorage (blasfeo/Memory.hpp) *)
Inductive storage_op :=
| SDefault (x : nat)                 (* :22-24  AlignedStorage() *)
| SAlloc (x a : nat)                 (* :27-30  AlignedStorage(bytes), malloc_align returned a *)
| SMoveCtor (x y : nat)              (* :38-42  AlignedStorage x(std::move(y)) *)
| SMoveAssign (x y : nat)            (* :50-55  x = std::move(y) *)
| SSwap (x y : nat)                  (* :59-62  x.swap(y) *)
| SDestroy (x : nat).                (* :79-82  ~AlignedStorage() *)
(** free_align (blasfeo/blasfeo_api/Alloc.hpp:25-28) frees what malloc_align (:16-22) allocated *)
Definition frees_malloc (k : akind) : bool := match k with Malloc => true | AlignedNew => false end.

(** std::swap(ptr_, rhs.ptr_) *)
Definition swap_ptrs (s : lstate) (x y : nat) : res lstate :=
  p <- pointer s x ;; q <- pointer s y ;; Ok (set_obj (set_obj s x (Some q)) y (Some p)).

Definition storage_step (s : lstate) (o : storage_op) : res lstate :=
  match o with
  | SDefault x => construct s x None
  | SAlloc x a => construct (allocate Malloc a s) x (Some a)
  | SMoveCtor x y => p <- pointer s y ;; s <- construct s x p ;; Ok (set_obj s y (Some None))
  | SMoveAssign x y => swap_ptrs s x y
  | SSwap x y => swap_ptrs s x y
  | SDestroy x => destroy frees_malloc s x
  end.

(* ------------------------------------------------------------------------------------------ *)
(** ** blasfeo::DynamicMatrix (blasfeo/DynamicMatrix.hpp) *)
(** The class declares a destructor and neither copy nor move operations, so that copies (also where a move is requested) are the
    implicit memberwise ones of the base blasfeo_dmat / blasfeo_smat, a C struct with pointers into the buffer. *)
Inductive matrix_op :=
| MCreate (x a : nat)                (* :31-34, 38-43, 47-52: allocate_mat returned a *)
| MCopyCtor (x y : nat)              (* implicit *)
| MCopyAssign (x y : nat)            (* implicit *)
| MDestroy (x : nat).                (* :55-58: free_mat *)
Definition matrix_step (s : lstate) (o : matrix_op) : res lstate :=
  match o with
  | MCreate x a => construct (allocate Malloc a s) x (Some a)
  | MCopyCtor x y => p <- pointer s y ;; construct s x p
  | MCopyAssign x y => p <- pointer s y ;; _ <- pointer s x ;; Ok (set_obj s x (Some p))
  | MDestroy x => destroy frees_malloc s x
  end.

(* ------------------------------------------------------------------------------------------ *)
(** ** blast::DynamicMatrix (blast/math/dense/DynamicMatrix.hpp:33-83) and blast::DynamicPanelMatrix
       (blast/math/panel/DynamicPanelMatrix.hpp:57-109), which have the same special members *)
Inductive dyn_op :=
| DCreate (x a : nat)                (* DynamicMatrix(m, n): new (align_val_t) T[...] returned a *)
| DCopyCtor (x y : nat)              (* throws logic_error before anything is done *)
| DMoveCtor (x y : nat)              (* noexcept, throws: std::terminate *)
| DCopyAssign (x y : nat)            (* throws logic_error *)
| DMoveAssign (x y : nat)            (* noexcept, throws: std::terminate *)
| DDestroy (x : nat).                (* delete[] v_ : the deallocation function for unaligned new *)
(** [strict]: by the C++ standard operator delete[](void* ) must not be given a buffer of operator new[](size_t, align_val_t).
    Not strict: the deallocation functions are interchangeable, as in the usual implementations on Linux. *)
Definition plain_delete (strict : bool) (k : akind) : bool :=
  match k with Malloc => false | AlignedNew => negb strict end.
Definition dyn_step (strict : bool) (s : lstate) (o : dyn_op) : res lstate :=
  match o with
  | DCreate x a => construct (allocate AlignedNew a s) x (Some a)
  | DCopyCtor _ _ => Throw LogicError
  | DMoveCtor _ _ => noexcept (Throw LogicError)
  | DCopyAssign _ _ => Throw LogicError
  | DMoveAssign _ _ => noexcept (Throw LogicError)
  | DDestroy x => destroy (plain_delete strict) s x
  end.

(** A history: exceptions are caught by the caller and leave the state as it was. *)
Fixpoint run {Op} (step : lstate -> Op -> res lstate) (s : lstate) (h : list Op) : res lstate :=
  match h with
  | [] => Ok s
  | o :: h => match step s o with
              | Ok s' => run step s' h
              | Throw _ => run step s h
              | r => r
              end
  end.
