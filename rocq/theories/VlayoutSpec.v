(** Specification vocabulary for the vectorised layout, independent of the
    index arithmetic of the code. *)
From Verif Require Import Common LayoutModel LayoutSpec VlayoutModel.

(** An acceptable division of every rank's box into subnodes, which is what
    setup_layout_vector.cpp looks for: every rank has sites; each extent is a
    whole number of subnodes; a divided direction has an even subnode extent;
    the merged direction is divided an even number of times; two directions
    have an even subnode extent. *)
Definition valid_vlattice (v : vlattice) : Prop :=
  let lat := vl_lat v in
  let n := length (l_size lat) in
  valid_lattice lat /\
  length (vl_div v) = n /\
  Forall (fun x => 0 < x) (vl_div v) /\
  (vl_merged v < n)%nat /\ (nth (vl_merged v) (vl_div v) 0) mod 2 = 0 /\
  (forall j, (j < n)%nat -> nth j (n_divisions lat) 0 <= nth j (l_size lat) 0) /\
  (forall r j, is_rank lat r -> (j < n)%nat ->
     exists s, 0 < s /\ nth j (n_siz (nodeinfo lat r)) 0 = nth j (vl_div v) 0 * s /\
               (1 < nth j (vl_div v) 0 -> s mod 2 = 0)) /\
  (forall r, is_rank lat r -> exists i j, i <> j /\ (i < n)%nat /\ (j < n)%nat /\
     (nth i (n_siz (nodeinfo lat r)) 0 / nth i (vl_div v) 0) mod 2 = 0 /\
     (nth j (n_siz (nodeinfo lat r)) 0 / nth j (vl_div v) 0) mod 2 = 0).

(** Extent of a subnode of rank [r] in direction [j]: the rank's extent over
    the number of divisions; for 64-bit vectors two neighbouring subnodes are
    merged in the merged direction. *)
Definition sub_extent (v : vlattice) (dbl : bool) (r : Z) (j : nat) : Z :=
  nth j (n_siz (nodeinfo (vl_lat v) r)) 0 / nth j (vl_div v) 0 *
  (if dbl && (j =? vl_merged v)%nat then 2 else 1).

(** Which subnode a site of rank [r] is in, and where in the subnode. *)
Definition subnode_of (v : vlattice) (dbl : bool) (r : Z) (c : list Z) (j : nat) : Z :=
  (nth j c 0 - nth j (n_min (nodeinfo (vl_lat v) r)) 0) / sub_extent v dbl r j.
Definition place_in_subnode (v : vlattice) (dbl : bool) (r : Z) (c : list Z) (j : nat) : Z :=
  (nth j c 0 - nth j (n_min (nodeinfo (vl_lat v) r)) 0) mod sub_extent v dbl r j.

Definition same_subnode (v : vlattice) (dbl : bool) (r : Z) (c c' : list Z) : Prop :=
  forall j, (j < length (l_size (vl_lat v)))%nat -> subnode_of v dbl r c j = subnode_of v dbl r c' j.
Definition same_place (v : vlattice) (dbl : bool) (r : Z) (c c' : list Z) : Prop :=
  forall j, (j < length (l_size (vl_lat v)))%nat ->
    place_in_subnode v dbl r c j = place_in_subnode v dbl r c' j.

(** Every rank has the value of each of its sites at that site's index. *)
Definition vrepresents {T : Type} (v : vlattice) (st : Z -> Z -> T) (F : list Z -> T) : Prop :=
  forall r c, is_rank (vl_lat v) r -> holds (vl_lat v) r c ->
    st r (vsite_index v (nodeinfo (vl_lat v) r) c) = F c.

(** A history of halo updates: each request names a direction and a parity. *)
Definition run_gathers (T : Type) (v : vlattice) (dbl : bool) (st : Z -> Z -> T) (reqs : list (Z * parity))
  : Z -> Z -> T :=
  fold_left (fun s q => vgather T v dbl (fst q) (snd q) (fun _ x => x) (fun _ x => x) s) reqs st.

(** The neighbour's value under an antiperiodic boundary condition: negated
    when the step from [c] leaves the lattice, that is when the periodic
    neighbour is not simply the next coordinate. *)
Definition antiperiodic_value {T : Type} (neg : T -> T) (lat : lattice) (F : list Z -> T) (c : list Z) (d : Z) : T :=
  if list_eq_dec Z.eq_dec (neighbour lat c d) (add_dir c d) then F (neighbour lat c d)
  else neg (F (neighbour lat c d)).
