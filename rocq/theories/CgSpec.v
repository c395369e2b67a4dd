(** What the solver relies on. *)
From Coq Require Import List Bool Field_theory.
From Verif Require Import CgModel.
Import ListNotations.

(** Exact arithmetic: an ordered field with decidable equality. *)
Record ordered_field (S : scalar) : Prop := {
  of_field : field_theory (zero S) (one S) (plus S) (times S) (minus S)
               (fun x => minus S (zero S) x) (over S) (fun x => over S (one S) x) eq;
  of_zero : forall x, is_zero S x = true <-> x = zero S;
  of_irr : forall x, less S x x = false;
  of_trans : forall x y z, less S x y = true -> less S y z = true -> less S x z = true;
  of_total : forall x y, x <> y -> less S x y = true \/ less S y x = true;
  of_plus : forall x y z, less S x y = true -> less S (plus S x z) (plus S y z) = true;
  of_times : forall x y, less S (zero S) x = true -> less S (zero S) y = true ->
    less S (zero S) (times S x y) = true
}.

(** Fields with [m] components. *)
Definition vec (S : scalar) (m : nat) (v : list (num S)) : Prop := length v = m.

Definition zeros (S : scalar) (m : nat) : list (num S) := repeat (zero S) m.

(** Real scalar product. *)
Fixpoint dot (S : scalar) (u v : list (num S)) : num S :=
  match u, v with
  | a :: u', b :: v' => plus S (times S a b) (dot S u' v')
  | _, _ => zero S
  end.

(** A linear operator on the fields with [m] components. *)
Record linear (S : scalar) (m : nat) (f : list (num S) -> list (num S)) : Prop := {
  l_vec : forall u, vec S m u -> vec S m (f u);
  l_add : forall u v, vec S m u -> vec S m v -> f (vadd S u v) = vadd S (f u) (f v);
  l_scale : forall c u, vec S m u -> f (scale S c u) = scale S c (f u)
}.

Definition adjoint (S : scalar) (m : nat) (f g : list (num S) -> list (num S)) : Prop :=
  forall u v, vec S m u -> vec S m v -> dot S (f u) v = dot S u (g v).

Definition injective (S : scalar) (m : nat) (f : list (num S) -> list (num S)) : Prop :=
  forall u, vec S m u -> f u = zeros S m -> u = zeros S m.
