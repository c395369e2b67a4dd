(** What is said of Gauss' law. *)
Set Warnings "-notation-overridden,-ambiguous-paths".
From Coq Require Import ZArith List.
From mathcomp Require Import all_ssreflect all_algebra.
From Verif Require Import GaugeModel GaugeSpec GaugeMatrix LinalgModel LinalgSpec AlgebraModel AlgebraSpec MatrixSpec
  ForceModel ForceSpec GaussModel.
Set Implicit Arguments.
Unset Strict Implicit.
Unset Printing Implicit Defensive.
Import GRing.Theory Num.Theory.
Local Open Scope ring_scope.

Section Spec.
Variables (C : numClosedFieldType) (n : nat).
Notation CM := (complex_matrices C n).
Notation SU := (su_algebra C n).
Notation FS := (field_scalars (fun x : C => x) 0).
Notation Ex := (@algebra_matrix C n).

Definition conjugate (A : 'M[C]_n) : 'M[C]_n := (map_mx conjC A)^T.

(** The operations for SU(n); the exponential is the argument [ex]. *)
Definition algebra_components (A : 'M[C]_n) : nat -> C :=
  project_to_algebra FS conjC (fun x => 'Re x) (fun x => 'Im x) (fun x => sqrtC x) n (elements A).
Definition su_gauss (ex : (nat -> C) -> 'M[C]_n) : gauss_ops CM SU :=
  mkGaussOps CM SU Ex algebra_components
    (fun (s : C) (a : nat -> C) k => s * a k) ex
    (fun a b : C => b < a) (fun (a : C) z => a / (int_of_Z z)%:~R)
    (5%:R / 4%:R / 12%:R) (2%:R * (5%:R / 4%:R / 12%:R)).

(** exp(E) is unitary and commutes with what commutes with E. *)
Definition exponential (ex : (nat -> C) -> 'M[C]_n) : Prop :=
  forall a, real_components (n * n - 1) a ->
  GaugeSpec.unitary CM (ex a) /\ forall A, A *m Ex a = Ex a *m A -> A *m ex a = ex a *m A.

(** The covariant divergence of the electric field: Gauss' law says that it is
    zero.  G^a(x) are its components. *)
Definition divergence (L : list Z) (U : links C n) (E : moments C) (x : site) : 'M[C]_n :=
  \sum_(d <- directions L)
    (Ex (E d x) - conjugate (U d (GaugeModel.down L d x)) *m Ex (E d (GaugeModel.down L d x))
                    *m U d (GaugeModel.down L d x)).

(** The sum over sites and components of (G^a)^2, which is 2 Tr G^+ G. *)
Definition total_violation (L : list Z) (U : links C n) (E : moments C) : C :=
  \sum_(x <- sites L) 2%:R * \sum_i \sum_j `|divergence L U E x i j| ^+ 2.

(** The number of sites. *)
Definition volume (L : list Z) : C := (size (sites L))%:R.

(** The scalar product of two fields of momenta. *)
Definition product (L : list Z) (E F : moments C) : C :=
  \sum_(d <- directions L) \sum_(x <- sites L) \sum_(k < n * n - 1) E d x k * F d x k.

(** A gauge transformation of the electric field. *)
Definition transformed (L : list Z) (g : site -> 'M[C]_n) (E E' : moments C) : Prop :=
  forall d x, (d < length L)%N -> on_lattice L x -> Ex (E' d x) = g x *m Ex (E d x) *m conjugate (g x).
End Spec.
