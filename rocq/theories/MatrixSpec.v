(** Rectangular matrices of the mathematical components library, and what is
    said of matrix arithmetic. *)
Set Warnings "-notation-overridden,-ambiguous-paths".
From mathcomp Require Import all_ssreflect all_algebra.
Set Implicit Arguments.
Unset Strict Implicit.
Unset Printing Implicit Defensive.
Import GRing.Theory.
Local Open Scope ring_scope.

(** The n by m matrix and the row vector with the given elements. *)
Definition mxr (R : Type) (n m : nat) (A : nat -> nat -> R) : 'M[R]_(n, m) := \matrix_(i, j) A i j.
Definition rv (R : Type) (n : nat) (v : nat -> R) : 'rV[R]_n := \row_i v i.

(** The conjugate transpose. *)
Definition adjoint (F : ringType) (cj : F -> F) n m (A : 'M[F]_(n, m)) : 'M[F]_(m, n) :=
  \matrix_(i, j) cj (A j i).

(** The unit matrix with the elements of the 2 by 2 matrix [M] in rows and
    columns p and q. *)
Definition embed2 (R : ringType) n (p q : nat) (M : nat -> nat -> R) : 'M[R]_n :=
  \matrix_(i, j)
    if (i == p :> nat) then
      if j == p :> nat then M 0%N 0%N else if j == q :> nat then M 0%N 1%N else 0
    else if (i == q :> nat) then
      if j == p :> nat then M 1%N 0%N else if j == q :> nat then M 1%N 1%N else 0
    else (i == j)%:R.

(** The exponential series up to the given power. *)
Definition exp_series (F : fieldType) n (A : 'M[F]_n.+1) (order : nat) : 'M[F]_n.+1 :=
  \sum_(k < order.+1) (k`!%:R)^-1 *: A ^+ k.
