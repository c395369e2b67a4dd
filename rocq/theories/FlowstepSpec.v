(** What is said of the integration of the gradient flow. *)
Set Warnings "-notation-overridden,-ambiguous-paths".
From Coq Require Import ZArith List.
From mathcomp Require Import all_ssreflect all_algebra.
From Verif Require Import GaugeModel GaugeSpec GaugeMatrix LinalgModel LinalgSpec AlgebraModel AlgebraSpec MatrixSpec
  ForceModel ForceSpec GaussModel GaussSpec FlowModel FlowSpec.
Set Implicit Arguments.
Unset Strict Implicit.
Unset Printing Implicit Defensive.
Import GRing.Theory Num.Theory.
Local Open Scope ring_scope.

Section Spec.
Variables (C : numClosedFieldType) (n : nat) (L : list Z).
Variables (ex : (nat -> C) -> 'M[C]_n) (F : links C n -> moments C) (reu : 'M[C]_n -> 'M[C]_n).
Notation Ex := (@algebra_matrix C n).

(** The links after the time 1 with momenta K. *)
Definition moved (K : moments C) (V : links C n) : links C n := fun d x => ex (K d x) *m V d x.

(** The momenta a K + b K'. *)
Definition combine (a b : C) (K K' : moments C) : moments C := fun d x k => a * K d x k + b * K' d x k.

(** The three-stage method of arXiv:1006.4518, step size h:
      W1 = exp(1/4 Z0) W0, W2 = exp(8/9 Z1 - 17/36 Z0) W1,
      W3 = exp(3/4 Z2 - (8/9 Z1 - 17/36 Z0)) W2,  Zi = h F(Wi),
    and the two-stage method  exp(2 Z1 - 5/4 Z0) W1. *)
Definition stage1 (h : C) (W0 : links C n) : links C n := moved (fun d x k => h * (1 / 4%:R) * F W0 d x k) W0.
Definition exponent2 (h : C) (W0 : links C n) : moments C :=
  combine (h * (8%:R / 9%:R)) (h * - (17%:R / 36%:R)) (F (stage1 h W0)) (F W0).
Definition stage2 (h : C) (W0 : links C n) : links C n := moved (exponent2 h W0) (stage1 h W0).
Definition runge_kutta3 (h : C) (W0 : links C n) : links C n :=
  moved (fun d x k => h * (3%:R / 4%:R) * F (stage2 h W0) d x k - exponent2 h W0 d x k) (stage2 h W0).
Definition exponent_low (h : C) (W0 : links C n) : moments C :=
  combine (h * 2%:R) (h * - (5%:R / 4%:R)) (F (stage1 h W0)) (F W0).
Definition runge_kutta2 (h : C) (W0 : links C n) : links C n := moved (exponent_low h W0) (stage1 h W0).

(** The length of an element of the algebra with components a. *)
Definition size_of (a : nat -> C) : C := sqrtC (\sum_(k < n * n - 1) `|a k| ^+ 2).

(** The methods agree on every link within the wanted accuracy. *)
Definition accurate (tatol rtol h : C) (V : links C n) : Prop :=
  forall d x, (d < length L)%N -> on_lattice L x ->
  size_of (algebra_components (runge_kutta2 h V d x *m conjugate (runge_kutta3 h V d x))) /
    (tatol + rtol * size_of (exponent_low h V d x) / h) < 1.

(** V' is reached from V by the steps hs, each positive, at most ub and accurate.
    After each step all links are reunitarized. *)
Fixpoint flows (tatol rtol ub : C) (hs : list C) (V V' : links C n) : Prop :=
  match hs with
  | nil => V' = V
  | h :: hs => [/\ 0 < h, h <= ub, accurate tatol rtol h V &
      flows tatol rtol ub hs (fun d x => reu (runge_kutta3 h V d x)) V']
  end.

(** The exponential function: special unitary for real components, and it follows
    a change of basis. *)
Definition matrix_exponential : Prop :=
  (forall a, real_components (n * n - 1) a -> special (ex a)) /\
  (forall a b g, GaugeSpec.unitary (complex_matrices C n) g -> Ex b = g *m Ex a *m conjugate g ->
     ex b = g *m ex a *m conjugate g).

(** Links in SU(n). *)
Definition special_links (V : links C n) : Prop :=
  forall d x, (d < length L)%N -> on_lattice L x -> special (V d x).

(** W is V in the gauge g. *)
Definition in_gauge (g : site -> 'M[C]_n) (V W : links C n) : Prop :=
  forall d x, (d < length L)%N -> on_lattice L x -> W d x = transform (complex_matrices C n) L g V d x.

(** The force has real components and follows gauge transformations. *)
Definition covariant_force : Prop :=
  (forall V, special_links V -> real_momenta n L (F V)) /\
  (forall g V W, (forall x, on_lattice L x -> special (g x)) -> special_links V -> in_gauge g V W ->
     transformed L g (F V) (F W)).
End Spec.

(** Commuting links: a link is a number y, all functions of the step size, and
    exp(k) changes y to y + k.  A function of the step size is a polynomial. *)
Section Abelian.
Variable F : numFieldType.
Notation R := {poly F}.
Definition abelian : matrices :=
  mkMatrices R R R 0 0 (fun a b => a + b) (fun a b => a + b) (fun a => - a) id 0 (fun a b => a + b) id
    0 (fun a b => a + b) id (fun a _ => a) (fun a _ => a).
Definition abelian_linear : linear abelian :=
  mkLinear abelian (fun a b : R => a - b) (fun a b : R => a * b) id id (fun a b : R => a * b) id (0 : R) (0 : R).
Definition abelian_algebra : algebras abelian :=
  mkAlgebras abelian R (0 : R) (fun a b => a + b) (fun a b => a - b) (fun _ a => a) id (fun a => - a) (fun _ => true).
Definition abelian_gauss : gauss_ops abelian abelian_algebra :=
  mkGaussOps abelian abelian_algebra id id (fun a b : R => a * b) id (fun _ _ => true) (fun a _ => a) (0 : R) (0 : R).
Definition abelian_flow : flow_ops abelian abelian_algebra :=
  mkFlowOps abelian abelian_algebra (fun p q => ((int_of_Z p)%:~R / (int_of_Z q)%:~R)%:P)
    (fun a b : R => a - b) (fun a _ => a) id (fun _ _ => true) id id (fun a b : R => a * b) id.

(** The force p(y) at every link. *)
Definition force_of (p : {poly F}) (V : nat -> site -> R) : nat -> site -> R := fun d x => p \Po V d x.

(** a and b agree up to the power m of the step size. *)
Definition agree_to (m : nat) (a b : R) : Prop := forall i, (i <= m)%N -> a`_i = b`_i.

(** y solves y' = p(y), y(0) = y0 up to the power m of the time. *)
Definition solves_to (m : nat) (p : {poly F}) (y0 : F) (y : R) : Prop :=
  y`_0 = y0 /\ forall k, m = S k -> agree_to k y^`() (p \Po y).
End Abelian.
