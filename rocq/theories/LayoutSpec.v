(** Specification vocabulary for the layout properties, independent of the
    code: sites of a periodic lattice, boxes, neighbours. *)
From Verif Require Import Common LayoutModel.

(** [c] is a site of the periodic lattice with sizes [ls]. *)
Definition is_site (ls c : list Z) : Prop :=
  length c = length ls /\ forall j, (j < length ls)%nat -> 0 <= nth j c 0 < nth j ls 0.

(** [c] lies in the box with lower corner [mn] and extents [sz]. *)
Definition in_region (mn sz c : list Z) : Prop :=
  length mn = length c /\ length sz = length c /\
  forall j, (j < length c)%nat -> nth j mn 0 <= nth j c 0 < nth j mn 0 + nth j sz 0.

(** Coordinate sum, and parity of a site. *)
Definition site_even (c : list Z) : Prop := (zsum c) mod 2 = 0.

(** Does a site belong to a loop parity? *)
Definition has_parity (p : parity) (c : list Z) : Prop :=
  match p with EVEN => site_even c | ODD => ~ site_even c | ALL => True end.

(** A lattice with an acceptable division: sizes and divisions positive in
    every direction (any sizes, also odd; any divisions, also uneven ones or
    more divisions than sites), and a rank numbering that is a bijection. *)
Definition valid_lattice (lat : lattice) : Prop :=
  length (l_size lat) = length (n_divisions lat) /\
  Forall (fun x => 0 < x) (l_size lat) /\
  Forall (fun x => 0 < x) (n_divisions lat) /\
  (forall i, 0 <= i < number_of_nodes lat ->
     0 <= remap lat i < number_of_nodes lat /\ inverse_remap lat (remap lat i) = i) /\
  (forall r, 0 <= r < number_of_nodes lat ->
     0 <= inverse_remap lat r < number_of_nodes lat /\ remap lat (inverse_remap lat r) = r).

Definition is_rank (lat : lattice) (r : Z) : Prop := 0 <= r < number_of_nodes lat.

(** The sites a rank holds. *)
Definition holds (lat : lattice) (r : Z) (c : list Z) : Prop :=
  in_region (n_min (nodeinfo lat r)) (n_siz (nodeinfo lat r)) c.

(** Unit displacement of direction [d] in component [j], [n] dimensions:
    directions 0..n-1 point up, 2n-1-j is the opposite of j. *)
Definition displacement (n d : Z) (j : nat) : Z :=
  if d =? Z.of_nat j then 1 else if d =? 2 * n - 1 - Z.of_nat j then -1 else 0.

Definition is_direction (ls : list Z) (d : Z) : Prop := 0 <= d < 2 * Z.of_nat (length ls).

(** [c'] is the periodic neighbour of [c] in direction [d]. *)
Definition periodic_neighbour (ls c : list Z) (d : Z) (c' : list Z) : Prop :=
  length c = length ls /\ length c' = length ls /\
  forall j, (j < length ls)%nat ->
    nth j c' 0 = (nth j c 0 + displacement (Z.of_nat (length ls)) d j) mod nth j ls 0.

(** A multi-rank store holds the global field [F]: each rank has the value of
    each of its sites at that site's local index. *)
Definition represents {V : Type} (lat : lattice) (st : Z -> Z -> V) (F : list Z -> V) : Prop :=
  forall r c, is_rank lat r -> holds lat r c -> st r (site_index (nodeinfo lat r) c) = F c.
