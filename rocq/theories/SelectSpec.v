(** Specification of site selections. *)
From Verif Require Import Common LayoutModel LayoutSpec.

(** [all] lists the sites of parity [p] satisfying [sel], each once, first those
    of rank 0, then those of rank 1 and so on. *)
Definition in_rank_order (lat : lattice) (p : parity) (sel : list Z -> Prop) (all : list (list Z)) : Prop :=
  exists per_rank : list (list (list Z)),
    all = concat per_rank /\ Z.of_nat (length per_rank) = number_of_nodes lat /\
    forall r, is_rank lat r ->
      NoDup (nth (Z.to_nat r) per_rank []) /\
      forall c, In c (nth (Z.to_nat r) per_rank []) <-> holds lat r c /\ has_parity p c /\ sel c.

(** The sites at which select was called at least once. *)
Definition selected {V : Type} (calls : list Z -> list V) (c : list Z) : Prop := calls c <> [].

(** The result of a selection with maximum [max], given the sites in rank order:
    the sites, the list of values and the overflow count of rank 0 (coordinates
    of sites and values in the same order). *)
Definition delivered {V : Type} (max : Z) (all : list (list Z)) (value_at : list Z -> V -> Prop)
    (sites : list (list Z)) (values : list V) (overflow : Z) : Prop :=
  let kept := firstn (Z.to_nat max) all in
  sites = kept /\ Forall2 value_at kept values /\
  overflow = Z.of_nat (length all) - Z.of_nat (length kept).
