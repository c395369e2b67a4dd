(** Specification of the copies of parts of a field to arrays. *)
From Verif Require Import Common LayoutModel LayoutSpec.

(** Position of [c] in an array holding the box with lower corner [mn] and
    extents [sz], the first coordinate running fastest. *)
Definition offset (mn sz c : list Z) : Z :=
  zsum (map (fun j => (nth j c 0 - nth j mn 0) * zprod (firstn j sz)) (seq 0 (length sz))).

(** [x] is the site of the periodic lattice at the coordinates [c]. *)
Definition wraps_to (ls c x : list Z) : Prop :=
  length x = length ls /\ forall j, (j < length ls)%nat -> nth j x 0 = nth j c 0 mod nth j ls 0.

(** The box of a rank and the box with one more layer of sites on each side. *)
Definition lower (lat : lattice) (r : Z) : list Z := n_min (nodeinfo lat r).
Definition extent (lat : lattice) (r : Z) : list Z := n_siz (nodeinfo lat r).
Definition outer_lower (lat : lattice) (r : Z) : list Z := map (fun m => m - 1) (lower lat r).
Definition outer_extent (lat : lattice) (r : Z) : list Z := map (fun s => s + 2) (extent lat r).

(** Coordinates that are in the upper layer of a direction in which the rank has
    just one layer of sites. *)
Definition above_single_layer (lat : lattice) (r : Z) (c : list Z) : Prop :=
  exists j, (j < length c)%nat /\ nth j (extent lat r) 0 = 1 /\
            nth j c 0 = nth j (lower lat r) 0 + 1.

(** The coordinates of the range [cmin] .. [cmax], ends included. *)
Definition in_range (cmin cmax c : list Z) : Prop :=
  length cmin = length c /\ length cmax = length c /\
  forall j, (j < length c)%nat -> nth j cmin 0 <= nth j c 0 <= nth j cmax 0.

(** The extents of a range. *)
Definition spans (cmin cmax : list Z) : list Z :=
  map (fun j => nth j cmax 0 - nth j cmin 0 + 1) (seq 0 (length cmin)).

(** The coordinates of a slice: those components of [slice] that are not
    negative are fixed. *)
Definition on_slice (slice c : list Z) : Prop :=
  length slice = length c /\
  forall j, (j < length c)%nat -> nth j slice 0 < 0 \/ nth j c 0 = nth j slice 0.
