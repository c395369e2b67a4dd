(** Matrices and numbers of the mathematical components library. *)
Set Warnings "-notation-overridden,-ambiguous-paths".
From mathcomp Require Import all_ssreflect all_algebra.
From Verif Require LinalgModel.
Set Implicit Arguments.
Unset Strict Implicit.
Unset Printing Implicit Defensive.
Import GRing.Theory Num.Theory.
Local Open Scope ring_scope.

(** The numbers of a numeric field (rational, real, complex, ...), in which
    every element has a norm; [f] stands for 1 / sqrt(x), [u] for the value of
    what has not been assigned. *)
Definition field_scalars (F : numFieldType) (f : F -> F) (u : F) : LinalgModel.scalars :=
  LinalgModel.mkScalars F 0 1 (fun a b => a + b) (fun a b => a - b) (fun a b => a * b)
    (fun a b => a / b) (fun a => - a) (fun a => a == 0)
    (fun a b => a < b) (fun a b => a <= b) (fun a => `|a| ^+ 2) (fun a => `|a|) f u.

(** All that is used of 1 / sqrt(x). *)
Definition positive_scale (F : numFieldType) (f : F -> F) : Prop :=
  forall x, 0 < x -> 0 < f x.

(** The n by n matrix and the vector with the given elements. *)
Definition mx (R : Type) (n : nat) (A : nat -> nat -> R) : 'M[R]_n := \matrix_(i, j) A i j.
Definition cv (R : Type) (n : nat) (v : nat -> R) : 'cV[R]_n := \col_i v i.

(** The unit lower triangular and the upper triangular factor stored in one
    matrix. *)
Definition lower (R : ringType) (n : nat) (a : nat -> nat -> R) : 'M[R]_n :=
  \matrix_(i, j) if (j < i)%N then a i j else (i == j)%:R.
Definition upper (R : ringType) (n : nat) (a : nat -> nat -> R) : 'M[R]_n :=
  \matrix_(i, j) if (i <= j)%N then a i j else 0.
