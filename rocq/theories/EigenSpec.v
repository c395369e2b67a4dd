(** What is said of eigenvalues and singular values. *)
Set Warnings "-notation-overridden,-ambiguous-paths".
From mathcomp Require Import all_ssreflect all_algebra.
From Verif Require Import MatrixSpec.
Set Implicit Arguments.
Unset Strict Implicit.
Unset Printing Implicit Defensive.
Import GRing.Theory Num.Theory.
Local Open Scope ring_scope.

(** Complex conjugate, real part and square root in a field of numbers: the
    complex numbers, or the real numbers with the identity as conjugate. *)
Definition complex_numbers (F : numFieldType) (cj : F -> F) (re root : F -> F) : Prop :=
  [/\ forall x, x * cj x = `|x| ^+ 2,
      forall x, re x = (x + cj x) / 2%:R &
      forall x, 0 <= x -> 0 <= root x /\ root x ^+ 2 = x].

Section Spec.
Variables (F : numFieldType) (cj : F -> F).

Definition hermitean n (A : 'M[F]_n) : Prop := adjoint cj A = A.
Definition unitary n (U : 'M[F]_n) : Prop := adjoint cj U *m U = 1%:M.

(** The sum of the squared norms of the elements off the diagonal. *)
Definition offdiagonal n (A : 'M[F]_n) : F := \sum_i \sum_(j | j != i) `|A i j| ^+ 2.

End Spec.
