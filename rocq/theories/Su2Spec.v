(** What is said of SU2 matrices kept as four real numbers. *)
Set Warnings "-notation-overridden,-ambiguous-paths".
From mathcomp Require Import all_ssreflect all_algebra.
From Verif Require Import LinalgModel LinalgSpec Su2Model.
Set Implicit Arguments.
Unset Strict Implicit.
Unset Printing Implicit Defensive.
Import GRing.Theory Num.Theory.
Local Open Scope ring_scope.

Section Spec.
Variables (F : numFieldType) (f : F -> F) (u : F).
Notation FS := (field_scalars f u).

Definition real_su2 (q : su2 FS) : Prop :=
  [/\ qa FS q \is Num.real, qb FS q \is Num.real, qc FS q \is Num.real & qd FS q \is Num.real].

Definition real_algebra (E : su2_algebra FS) : Prop :=
  [/\ ea FS E \is Num.real, eb FS E \is Num.real & ec FS E \is Num.real].

(** The 2 by 2 matrix with the given rows, and the Pauli matrices. *)
Definition mat2 (a b c d : F) : 'M[F]_2 :=
  \matrix_(i, j) (if i == 0 then if j == 0 then a else b else if j == 0 then c else d).
Definition pauli1 : 'M[F]_2 := mat2 0 1 1 0.
Definition pauli2 (I : F) : 'M[F]_2 := mat2 0 (- I) I 0.
Definition pauli3 : 'M[F]_2 := mat2 1 0 0 (-1).

End Spec.
