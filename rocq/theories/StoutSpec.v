(** What is said of stout smearing. *)
Set Warnings "-notation-overridden,-ambiguous-paths".
From Coq Require Import ZArith List.
From mathcomp Require Import all_ssreflect all_algebra.
From Verif Require Import GaugeModel GaugeSpec GaugeMatrix LinalgModel LinalgSpec AlgebraModel AlgebraSpec MatrixSpec
  ForceModel ForceSpec GaussModel GaussSpec FlowModel FlowSpec FlowstepSpec.
Set Implicit Arguments.
Unset Strict Implicit.
Unset Printing Implicit Defensive.
Import GRing.Theory Num.Theory.
Local Open Scope ring_scope.

Section Spec.
Variables (C : numClosedFieldType) (n : nat) (L : list Z).
Variable ex : (nat -> C) -> 'M[C]_n.
Notation line U p x := (path_line (M := complex_matrices C n) L U p x : 'M[C]_n).

(** The plaquettes that begin with the link in direction d at x. *)
Definition plaquette_sum (U : links C n) (d : nat) (x : site) : 'M[C]_n :=
  \sum_(d2 <- directions L | d2 != d)
    (line U [:: Up d; Up d2; Down d; Down d2] x + line U [:: Up d; Down d2; Down d; Up d2] x).

(** The staples next to that link. *)
Definition upper_staple (U : links C n) (d d2 : nat) (x : site) : 'M[C]_n := line U [:: Up d2; Down d; Down d2] (up L d x).
Definition lower_staple (U : links C n) (d d2 : nat) (x : site) : 'M[C]_n := line U [:: Down d2; Down d; Up d2] (up L d x).

(** U' is U smeared once: every link is multiplied by exp(- c P), P the
    antihermitian traceless part of its plaquettes. *)
Definition smeared (c : C) (U U' : links C n) : Prop :=
  forall d x, (d < length L)%N -> on_lattice L x -> exists a,
  [/\ real_components (n * n - 1) a, algebra_matrix n a = (- c) *: algebra_part (plaquette_sum U d x) & U' d x = ex a *m U d x].

Definition same_links (U U' : links C n) : Prop :=
  forall d x, (d < length L)%N -> on_lattice L x -> U' d x = U d x.

(** U' is U smeared m times. *)
Fixpoint smeared_times (c : C) (m : nat) (U U' : links C n) : Prop :=
  match m with
  | O => same_links U U'
  | S m => exists2 W, smeared c U W & smeared_times c m W U'
  end.

(** ex(t a) = 1 + t a + O(t^2). *)
Definition exponential_at_0 : Prop :=
  forall a i j, real_components (n * n - 1) a ->
  derivative (fun t => ex (fun k => t * a k) i j) ((1%:M : 'M[C]_n) i j) (algebra_matrix n a i j).
End Spec.
