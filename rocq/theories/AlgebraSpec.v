(** What is said of the Lie algebra of SU(N). *)
Set Warnings "-notation-overridden,-ambiguous-paths".
From mathcomp Require Import all_ssreflect all_algebra.
From Verif Require Import MatrixSpec EigenSpec SuSpec.
Set Implicit Arguments.
Unset Strict Implicit.
Unset Printing Implicit Defensive.
Import GRing.Theory Num.Theory.
Local Open Scope ring_scope.

(** Complex conjugate, real and imaginary part, square root and imaginary unit. *)
Definition complex_parts (F : numFieldType) (cj re im root : F -> F) (I : F) : Prop :=
  [/\ complex_numbers cj re root, imaginary_unit cj I & forall x, im x = (x - cj x) / (2%:R * I)].

Section Spec.
Variables (F : numFieldType) (cj : F -> F).

Definition antihermitean n (A : 'M[F]_n) : Prop := adjoint cj A = - A.

(** The antihermitean traceless part of a matrix. *)
Definition algebra_part n (A : 'M[F]_n) : 'M[F]_n :=
  let B := 2%:R^-1 *: (A - adjoint cj A) in B - (\tr B / n%:R)%:M.

(** The first m components are real numbers. *)
Definition real_components (m : nat) (a : nat -> F) : Prop := forall k, (k < m)%N -> a k \is Num.real.

End Spec.
