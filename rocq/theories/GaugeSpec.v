(** What the gauge observables should be. *)
From Coq Require Import ZArith List Bool.
From Verif Require Import Common GaugeModel.
Import ListNotations.
Open Scope Z_scope.

(** Matrix algebra with hermitean conjugate and trace. *)
Record matrix_laws (M : matrices) : Prop := {
  m_assoc : forall a b c, mul M a (mul M b c) = mul M (mul M a b) c;
  m_one_l : forall a, mul M (mone M) a = a;
  m_one_r : forall a, mul M a (mone M) = a;
  m_dist_l : forall a b c, mul M a (madd M b c) = madd M (mul M a b) (mul M a c);
  m_dist_r : forall a b c, mul M (madd M a b) c = madd M (mul M a c) (mul M b c);
  m_zero : forall a, madd M (mzero M) a = a;
  m_mul_zero : forall a, mul M a (mzero M) = mzero M;
  m_zero_mul : forall a, mul M (mzero M) a = mzero M;
  m_add_assoc : forall a b c, madd M a (madd M b c) = madd M (madd M a b) c;
  m_dag_mul : forall a b, dagger M (mul M a b) = mul M (dagger M b) (dagger M a);
  m_dag_add : forall a b, dagger M (madd M a b) = madd M (dagger M a) (dagger M b);
  m_dag_dag : forall a, dagger M (dagger M a) = a;
  m_trace_cyclic : forall a b, trace M (mul M a b) = trace M (mul M b a);
  m_trace_add : forall a b, trace M (madd M a b) = cadd M (trace M a) (trace M b);
  m_trace_zero : trace M (mzero M) = czero M;
  m_trace_dag : forall a, real M (trace M (dagger M a)) = real M (trace M a);
  m_cadd_assoc : forall a b c, cadd M a (cadd M b c) = cadd M (cadd M a b) c;
  m_cadd_zero : forall a, cadd M (czero M) a = a
}.

Definition unitary (M : matrices) (g : mat M) : Prop :=
  mul M g (dagger M g) = mone M /\ mul M (dagger M g) g = mone M.

(** A gauge transformation: U_d(x) becomes g(x) U_d(x) g(x+d)^dagger. *)
Definition transform (M : matrices) (L : list Z) (g : site -> mat M) (U : gauge M) : gauge M :=
  fun d x => mul M (mul M (g x) (U d x)) (dagger M (g (up L d x))).

(** Lattices: positive sizes; the coordinates of a site are in range. *)
Definition sizes (L : list Z) : Prop := Forall (fun l => 0 < l) L.
Definition even_sizes (L : list Z) : Prop := Forall (fun l => Z.even l = true) L.
Definition on_lattice (L : list Z) (x : site) : Prop := Forall2 (fun l a => 0 <= a < l) L x.

(** The plaquette in the plane d1, d2, from x first along d1. *)
Definition plaquette (M : matrices) (L : list Z) (U : gauge M) (d1 d2 : nat) (x : site) : mat M :=
  mul M (mul M (mul M (U d1 x) (U d2 (up L d1 x))) (dagger M (U d1 (up L d2 x))))
    (dagger M (U d2 x)).

(** The two staples of the link in direction d1 in the plane d1, d2: the naive
    method of the comment in staples.h. *)
Definition two_staples (M : matrices) (L : list Z) (U : gauge M) (d1 d2 : nat) (x : site) : mat M :=
  let y := down L d2 x in
  madd M (mul M (mul M (U d2 x) (U d1 (up L d2 x))) (dagger M (U d2 (up L d1 x))))
    (mul M (mul M (dagger M (U d2 y)) (U d1 y)) (U d2 (up L d1 y))).

Definition other_directions (L : list Z) (d1 : nat) : list nat :=
  filter (fun d2 => negb (d2 =? d1)%nat) (directions L).

Definition sum_of {A} (add : A -> A -> A) (zero : A) (l : list A) : A := fold_left add l zero.

(** The sum of all staples of a link. *)
Definition all_staples (M : matrices) (L : list Z) (U : gauge M) (d1 : nat) (x : site) : mat M :=
  sum_of (madd M) (mzero M)
    (map (fun d2 => two_staples M L U d1 d2 x) (other_directions L d1)).

(** The straight line of [n] links from x in direction d. *)
Fixpoint line (M : matrices) (L : list Z) (U : gauge M) (d : nat) (n : nat) (x : site) : mat M :=
  match n with
  | O => mone M
  | S n' => mul M (U d x) (line M L U d n' (up L d x))
  end.
