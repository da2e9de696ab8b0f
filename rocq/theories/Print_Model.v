(** Print_Model.v -- the output operator of matrices. *)
From Coq Require Import List Ascii PeanoNat.
From Verif Require Import Base Layout_Model Gemm_Model.
Import ListNotations.

Notation text := (list ascii).
Definition tab : ascii := ascii_of_nat 9.
Definition newline : ascii := ascii_of_nat 10.

Section Print.
Variables (SS : nat) (T : Type).
(** operator<<(os, m): math/Matrix.hpp:88-99.  [show] is the output operator of the element type with the formatting flags of the stream;
    [os] is the text written so far.  std::endl writes a newline (flushing has no effect on the text).  The stream is assumed not to fail. *)
Definition print_matrix (show : T -> text) (al : alloc) (a : marg) (m : mem T) (os : text) : res text :=
  for_ 0 (g_rows a) (fun i os =>
    os <- for_ 0 (g_cols a) (fun j os =>
            x <- rd al m (g_addr SS a i j) ;;
            Ok ((os ++ show x) ++ [tab])) os ;;
    Ok (os ++ [newline])) os.
End Print.
