(** Specification of reductions. *)
From Coq Require Import Permutation.
From Verif Require Import Common LayoutModel LayoutSpec ReduceModel.

(** Combination of a list of values. *)
Definition total {V : Type} (op : V -> V -> V) (e : V) (l : list V) : V := fold_right op e l.

(** Exact sums (or products): the order does not matter. *)
Definition comm_monoid {V : Type} (op : V -> V -> V) (e : V) : Prop :=
  (forall a b c, op a (op b c) = op (op a b) c) /\ (forall a b, op a b = op b a) /\ (forall a, op e a = a).

(** [sites] lists every site of the lattice with parity [p] exactly once. *)
Definition enumerates (ls : list Z) (p : parity) (sites : list (list Z)) : Prop :=
  NoDup sites /\ forall c, In c sites <-> is_site ls c /\ has_parity p c.

(** An order of combination in which each rank occurs exactly once. *)
Definition any_order (lat : lattice) (t : rtree) : Prop :=
  Permutation (leaves t) (zrange 0 (Z.to_nat (number_of_nodes lat))).
