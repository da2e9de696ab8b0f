(** Round_Spec.v -- specification vocabulary for floating-point accuracy: what is assumed about rounded scalar arithmetic, and the
    constants of the error bounds.  Nothing here refers to the model of the code except the scalar operations of Base.v. *)
From Coq Require Import Reals Lra Lia.
From Verif Require Import Base.
Local Open Scope R_scope.

(** [x] is [y] rounded with relative error u and absolute (underflow) error eta. *)
Definition rounds (u eta x y : R) : Prop := Rabs (x - y) <= u * Rabs y + eta.

(** Rounded scalar arithmetic.  [fin x]: x is neither infinite nor NaN, and then [val x] is the real number it represents.
    Every operation is correctly rounded up to u and eta when its result is finite, and a finite result comes from finite operands
    (for the quotient: x / inf = 0, so only the dividend; a quotient by the square root of a number that is not positive is never finite).
    Multiplications by 1 and -1 and comparisons are exact.  Float_Proofs.v shows that IEEE 754 binary formats are such arithmetics. *)
Record rounded {T} (O : Ops T) (val : T -> R) (fin : T -> bool) (u eta : R) : Prop := {
  ra_u : 0 <= u < 1;
  ra_eta : 0 <= eta;
  ra_0 : fin (o0 O) = true /\ val (o0 O) = 0;
  ra_v1 : fin (o1 O) = true /\ val (o1 O) = 1;
  ra_vm1 : fin (om1 O) = true /\ val (om1 O) = -1;
  ra_1 : forall x, fin (omul O (o1 O) x) = fin x /\ (fin x = true -> val (omul O (o1 O) x) = val x);
  ra_m1 : forall x, fin (omul O (om1 O) x) = fin x /\ (fin x = true -> val (omul O (om1 O) x) = - val x);
  ra_add : forall x y, fin (oadd O x y) = true -> fin x = true /\ fin y = true /\ rounds u eta (val (oadd O x y)) (val x + val y);
  ra_sub : forall x y, fin (osub O x y) = true -> fin x = true /\ fin y = true /\ rounds u eta (val (osub O x y)) (val x - val y);
  ra_mul : forall x y, fin (omul O x y) = true -> fin x = true /\ fin y = true /\ rounds u eta (val (omul O x y)) (val x * val y);
  ra_fma : forall x y z, fin (ofma O x y z) = true -> fin x = true /\ fin y = true /\ fin z = true /\
             rounds u eta (val (ofma O x y z)) (val x * val y + val z);
  ra_fnma : forall x y z, fin (ofnma O x y z) = true -> fin x = true /\ fin y = true /\ fin z = true /\
             rounds u eta (val (ofnma O x y z)) (val z - val x * val y);
  ra_div : forall x y, fin (odiv O x y) = true -> fin x = true /\
             (fin y = true -> val y <> 0 /\ rounds u eta (val (odiv O x y)) (val x / val y));
  ra_div_le : forall x y, fin x = true -> fin y = true -> val y <> 0 -> Rabs (val x) <= Rabs (val y) ->
             fin (odiv O x y) = true /\ Rabs (val (odiv O x y)) <= 1;
  ra_sqrt : forall x, fin x = true -> 0 <= val x -> fin (osqrt O x) = true /\ rounds u 0 (val (osqrt O x)) (sqrt (val x));
  ra_div_sqrt : forall x y, fin (odiv O x (osqrt O y)) = true -> fin y = true -> 0 < val y;
  ra_abs : forall x, fin (oabs O x) = fin x /\ (fin x = true -> val (oabs O x) = Rabs (val x));
  ra_ltb : forall x y, fin x = true -> fin y = true -> (oltb O x y = true <-> val x < val y);
  ra_eqb : forall x y, fin x = true -> fin y = true -> (oeqb O x y = true <-> val x = val y)
}.

(** Operations on finite numbers whose exact result is at most [big] in magnitude do not overflow. *)
Record ranged {T} (O : Ops T) (val : T -> R) (fin : T -> bool) (big : R) : Prop := {
  rg_mul : forall x y, fin x = true -> fin y = true -> Rabs (val x * val y) <= big -> fin (omul O x y) = true;
  rg_fma : forall x y z, fin x = true -> fin y = true -> fin z = true -> Rabs (val x * val y + val z) <= big -> fin (ofma O x y z) = true;
  rg_fnma : forall x y z, fin x = true -> fin y = true -> fin z = true -> Rabs (val z - val x * val y) <= big -> fin (ofnma O x y z) = true;
  rg_div : forall x y, fin x = true -> fin y = true -> val y <> 0 -> Rabs (val x / val y) <= big -> fin (odiv O x y) = true;
  rg_add : forall x y, fin x = true -> fin y = true -> Rabs (val x + val y) <= big -> fin (oadd O x y) = true;
  rg_sub : forall x y, fin x = true -> fin y = true -> Rabs (val x - val y) <= big -> fin (osub O x y) = true
}.

(** sum_{k<n} f k *)
Fixpoint Rsum (n : nat) (f : nat -> R) : R := match n with O => 0 | S k => Rsum k f + f k end.

(** (1 + u)^n - 1 and (1 - u)^-n - 1: the relative errors of n successive roundings, about n*u each. *)
Definition ups (u : R) (n : nat) : R := (1 + u) ^ n - 1.
Definition downs (u : R) (n : nat) : R := (/ (1 - u)) ^ n - 1.
