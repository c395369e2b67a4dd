(** What is said of the force under stout smearing. *)
Set Warnings "-notation-overridden,-ambiguous-paths".
From Coq Require Import ZArith List.
From mathcomp Require Import all_ssreflect all_algebra.
From Verif Require Import GaugeModel GaugeSpec GaugeMatrix LinalgModel LinalgSpec AlgebraModel AlgebraSpec MatrixSpec
  ForceModel ForceSpec GaussModel GaussSpec.
Set Implicit Arguments.
Unset Strict Implicit.
Unset Printing Implicit Defensive.
Import GRing.Theory Num.Theory.
Local Open Scope ring_scope.

Section Spec.
Variables (C : numClosedFieldType) (n : nat) (L : list Z).
Notation Ex := (@algebra_matrix C n).

(** K is c times the gradient of S at the links V: however the links move away from
    V, the rate of S times c is the scalar product of their velocity with K. *)
Definition gradient_at (S : links C n -> C) (V : links C n) (c : C) (K : moments C) : Prop :=
  real_momenta n L K /\
  forall U E, real_momenta n L E -> links_move L U V E ->
  exists2 D, derivative (fun t => S (U t)) (S V) D & product n L E K = c * D.

(** The exponential has a derivative: where a(t) moves from a with velocity b, ex(a(t))
    moves from Q = ex(a) with velocity D = e Q, e in the algebra; and dexp has the traces
    Tr(Q^+ k dQ/dX) with its changes. *)
Definition matrices_move (f : C -> 'M[C]_n) (A B : 'M[C]_n) : Prop :=
  forall i j, derivative (fun t => f t i j) (A i j) (B i j).
Definition exponential_derivative (ex : (nat -> C) -> 'M[C]_n) (dexp : (nat -> C) -> (nat -> C) -> 'M[C]_n) : Prop :=
  forall a b, real_components (n * n - 1) a -> real_components (n * n - 1) b -> exists D,
  [/\ forall at_, (forall t, real_components (n * n - 1) (at_ t)) ->
        matrices_move (fun t => Ex (at_ t)) (Ex a) (Ex b) -> matrices_move (fun t => ex (at_ t)) (ex a) D,
      exists2 e, real_components (n * n - 1) e & D = Ex e *m ex a &
      forall k, real_components (n * n - 1) k ->
        \tr (dexp a k *m Ex b) = \tr (conjugate (ex a) *m Ex k *m D)].
End Spec.
