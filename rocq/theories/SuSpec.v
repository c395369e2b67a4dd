(** What is said of SU(N) matrices. *)
Set Warnings "-notation-overridden,-ambiguous-paths".
From mathcomp Require Import all_ssreflect all_algebra.
From Verif Require Import MatrixSpec EigenSpec.
Set Implicit Arguments.
Unset Strict Implicit.
Unset Printing Implicit Defensive.
Import GRing.Theory Num.Theory.
Local Open Scope ring_scope.

Section Spec.
Variables (F : numFieldType) (cj : F -> F).

Definition special_unitary n (U : 'M[F]_n) : Prop := unitary cj U /\ \det U = 1.

(** Lower triangular with a positive diagonal. *)
Definition lower_positive n (L : 'M[F]_n) : Prop :=
  (forall i j : 'I_n, (i < j)%N -> L i j = 0) /\ (forall i, 0 < L i i).

(** The imaginary unit. *)
Definition imaginary_unit (I : F) : Prop := I * I = -1 /\ cj I = - I.

(** The number exp(-i arg(d) / n). *)
Definition phases (turn : nat -> F -> F) : Prop :=
  forall n d, (0 < n)%N -> d != 0 ->
    [/\ `|turn n d| = 1, turn n d ^+ n * d = `|d| & 0 < d -> turn n d = 1].

End Spec.
