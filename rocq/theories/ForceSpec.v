(** What is said of gauge actions and forces. *)
Set Warnings "-notation-overridden,-ambiguous-paths".
From Coq Require Import ZArith List.
From mathcomp Require Import all_ssreflect all_algebra.
From Verif Require Import GaugeModel GaugeSpec GaugeMatrix LinalgModel LinalgSpec AlgebraModel MatrixSpec ForceModel.
Set Implicit Arguments.
Unset Strict Implicit.
Unset Printing Implicit Defensive.
Import GRing.Theory Num.Theory.
Local Open Scope ring_scope.

(** f(t) = a + t b up to a term of second order in the real number t. *)
Definition derivative (C : numClosedFieldType) (f : C -> C) (a b : C) : Prop :=
  exists B, forall t, t \is Num.real -> `|t| <= 1 -> `|f t - a - t * b| <= B * `|t| ^+ 2.

(** ** Lines of links along a path *)

(** The site after a step and after a path. *)
Definition arrive (L : list Z) (x : site) (s : step) : site :=
  match s with Up d => up L d x | Down d => GaugeModel.down L d x end.
Definition path_end (L : list Z) (path : list step) (x : site) : site := fold_left (arrive L) path x.

(** The link in the direction of a step: U_d(x), or the conjugate of U_d(x - d);
    the product of the links along a path that starts at x. *)
Definition link_of (M : matrices) (L : list Z) (U : gauge M) (s : step) (x : site) : GaugeModel.mat M :=
  match s with
  | Up d => U d x
  | Down d => dagger M (U d (GaugeModel.down L d x))
  end.

Fixpoint path_line (M : matrices) (L : list Z) (U : gauge M) (path : list step) (x : site) : GaugeModel.mat M :=
  match path with
  | nil => mone M
  | cons s p => GaugeModel.mul M (link_of L U s x) (path_line L U p (arrive L x s))
  end.

Definition step_dir (s : step) : nat := match s with Up d => d | Down d => d end.
Definition in_dimensions (L : list Z) (path : list step) : Prop :=
  forall s, In s path -> (step_dir s < length L)%N.
Definition closed_path (L : list Z) (path : list step) : Prop :=
  forall x, on_lattice L x -> path_end L path x = x.

Section Spec.
Variables (C : numClosedFieldType) (n : nat).

(** ** Complex matrices and components in the Lie algebra of SU(n) *)

Definition complex_linear : linear (complex_matrices C n) :=
  mkLinear (complex_matrices C n)
    (fun A B => A - B : 'M[C]_n) (fun (s : C) (A : 'M[C]_n) => s *: A)
    (fun A : 'M[C]_n => A - (\tr A / n%:R)%:M)
    (fun A : 'M[C]_n => \sum_i \sum_j `|A i j| ^+ 2)
    (fun a b : C => a * b) (fun a : C => a / n%:R) 2%:R^-1 4%:R^-1.

Notation CM := (complex_matrices C n).
Notation FS := (field_scalars (fun x : C => x) 0).

(** The elements of a matrix by index. *)
Definition elements (A : 'M[C]_n) (i j : nat) : C :=
  match insub i, insub j with Some a, Some b => A a b | _, _ => 0 end.

(** The projection and expansion of C73. *)
Definition components (s : C) (A : 'M[C]_n) : nat -> C :=
  project_to_algebra_scaled FS conjC (fun x => 'Re x) (fun x => 'Im x) (fun x => sqrtC x) s n (elements A).
Definition algebra_matrix (a : nat -> C) : 'M[C]_n :=
  mxr n n (expand FS conjC (fun x => sqrtC x) 'i n a).

Definition su_algebra : algebras (complex_matrices C n) :=
  mkAlgebras (complex_matrices C n) (nat -> C) (fun _ => 0)
    (fun a b k => a k + b k) (fun a b k => a k - b k) components
    (fun a => \sum_(k < n * n - 1) `|a k| ^+ 2) (fun a => - a) (fun a : C => a != 0).

(** ** Links that move *)

Definition links := nat -> site -> 'M[C]_n.
Definition moments := nat -> site -> nat -> C.

(** Momenta have real components; links are unitary matrices. *)
Definition real_momenta (L : list Z) (E : moments) : Prop :=
  forall d x k, (d < length L)%N -> on_lattice L x -> (k < n * n - 1)%N -> E d x k \is Num.real.
Definition unitary_links (L : list Z) (V : links) : Prop :=
  forall d x, (d < length L)%N -> on_lattice L x -> GaugeSpec.unitary (complex_matrices C n) (V d x).

(** The links U(t) start at V and have the velocity E V, as with exp(t E) V. *)
Definition links_move (L : list Z) (U : C -> links) (V : links) (E : moments) : Prop :=
  forall d x i j, (d < length L)%N -> on_lattice L x ->
  derivative (fun t => U t d x i j) (V d x i j) ((algebra_matrix (E d x) *m V d x) i j).

(** The scalar product of E with the change of the momenta from K to K'. *)
Definition work (L : list Z) (E K K' : moments) : C :=
  \sum_(d <- directions L) \sum_(x <- sites L) \sum_(k < n * n - 1) E d x k * (K' d x k - K d x k).

(** The momenta P(t) start at E and move towards K, and are real. *)
Definition momenta_move (L : list Z) (P : C -> moments) (E K : moments) : Prop :=
  (forall t, t \is Num.real -> `|t| <= 1 -> real_momenta L (P t)) /\
  forall d x k, (d < length L)%N -> on_lattice L x -> (k < n * n - 1)%N ->
  derivative (fun t => P t d x k) (E d x k) (K d x k - E d x k).

(** ** Sums over paths *)

(** Real part of the trace, summed over the starting points. *)
Definition loop_sum (L : list Z) (U : links) (path : list step) : C :=
  \sum_(x <- sites L) 'Re (\tr (path_line (M := CM) L U path x : 'M[C]_n)).

(** The sum of 1 - Re Tr / n over the pairs of directions and the sites. *)
Definition loop_action (L : list Z) (U : links) (paths : list (list step)) : C :=
  \sum_(p <- paths) \sum_(x <- sites L) (1 - 'Re (\tr (path_line (M := CM) L U p x : 'M[C]_n)) / n%:R).

Definition plaquette_path (d1 d2 : nat) : list step := [:: Up d1; Up d2; Down d1; Down d2].
Definition rectangle_path (d1 d2 : nat) : list step := [:: Up d1; Up d1; Up d2; Down d1; Down d1; Down d2].
Definition pairs (L : list Z) : list (nat * nat) :=
  [seq p <- list_prod (directions L) (directions L) | (p.1 < p.2)%N].

(** Plaquettes, and rectangles along either direction. *)
Definition plaquettes (L : list Z) : list (list step) := [seq plaquette_path p.1 p.2 | p <- pairs L].
Definition rectangles (L : list Z) : list (list step) :=
  [seq rectangle_path p.1 p.2 | p <- pairs L] ++ [seq rectangle_path p.2 p.1 | p <- pairs L].

(** The clover: a quarter of the four plaquettes around x, and of it the
    antihermitean traceless part. *)
Definition clover_sum (L : list Z) (U : links) (d1 d2 : nat) (x : site) : 'M[C]_n :=
  4%:R^-1 *: (path_line (M := CM) L U [:: Up d1; Up d2; Down d1; Down d2] x
            + path_line (M := CM) L U [:: Up d2; Down d1; Down d2; Up d1] x
            + path_line (M := CM) L U [:: Down d1; Down d2; Up d1; Up d2] x
            + path_line (M := CM) L U [:: Down d2; Up d1; Up d2; Down d1] x).
Definition algebra_part (A : 'M[C]_n) : 'M[C]_n :=
  let B := 2%:R^-1 *: (A - (map_mx conjC A)^T) in B - (\tr B / n%:R)%:M.
Definition clover_action (L : list Z) (U : links) : C :=
  (\sum_(p <- pairs L) \sum_(x <- sites L)
     2%:R^-1 * (\sum_i \sum_j `|algebra_part (clover_sum L U p.1 p.2 x) i j| ^+ 2)) / n%:R.
End Spec.
