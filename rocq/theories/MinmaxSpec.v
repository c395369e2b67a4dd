(** Specification of Field::min and Field::max. *)
From Coq Require Import Permutation.
From Verif Require Import Common LayoutModel LayoutSpec ReduceModel ReduceSpec MinmaxModel.

(** [v] is the least (greatest) value of [F] on the sites of parity [p], and it is
    the value at the site [c]. *)
Definition extremum (is_min : bool) (ls : list Z) (p : parity) (F : list Z -> Z) (v : Z) (c : list Z) : Prop :=
  is_site ls c /\ has_parity p c /\ F c = v /\
  forall c', is_site ls c' -> has_parity p c' -> if is_min then v <= F c' else F c' <= v.

(** The numbers of a type lie between these. *)
Definition lowest (ty : numtype) : Z := if is_integer ty then limit_min ty else - limit_max ty.
Definition in_type (ty : numtype) (v : Z) : Prop := lowest ty <= v <= limit_max ty.

(** Any division of the sites of each rank between threads. *)
Definition thread_shares (lat : lattice) (p : parity) (chunks : Z -> list (list Z)) : Prop :=
  forall r, is_rank lat r -> Permutation (concat (chunks r)) (loop_indices (nodeinfo lat r) p).
