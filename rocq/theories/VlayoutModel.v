(** Model of the vectorised (AVX) site layout: the site index with "virtual
    nodes" (subnodes) in the vector lanes, the vectorised neighbour tables, the
    boundary permutations and the halo update of a vectorised field.

    Line numbers refer to /repo/libraries/plumbing: [lattice.cpp],
    [backend_vector/lattice_vector.h] ("lv.h") and
    [backend_vector/field_storage_backend.h] ("fs.h").  Parts that do not
    depend on the site order (boxes, second pass of the gather tables) are
    those of LayoutModel.  Integer overflow is not modelled, as there. *)
From Verif Require Import Common LayoutModel.

(** [lattice->mynode.subnodes.divisions] and [merged_subnodes_dir] (lattice.h,
    set by setup_layout_vector.cpp), with the lattice they belong to. *)
Record vlattice : Type := mkVlattice {
  vl_lat : lattice;
  vl_div : list Z;
  vl_merged : nat
}.

(** [hila::number_of_subnodes] = VECTOR_SIZE/sizeof(float): the number of
    lanes of a 32-bit vector.  setup_layout_vector.cpp distributes exactly
    these prime factors, so it is the product of the divisions. *)
Definition number_of_subnodes (v : vlattice) : Z := zprod (vl_div v).

(** Componentwise quotient: [a.asArray() / b.asArray()]. *)
Fixpoint cquot (a b : list Z) : list Z :=
  match a, b with
  | x :: a', y :: b' => x / y :: cquot a' b'
  | _, _ => []
  end.

(** lattice.cpp 282-283: [subsize]. *)
Definition subsize (v : vlattice) (ni : node_info) : list Z := cquot (n_siz ni) (vl_div v).

(** lattice.cpp 285-290: the subnode coordinate along the merged direction,
    "flipped to interleaved ordering". *)
Definition merged_digit (v : vlattice) (ni : node_info) (loc : list Z) : Z :=
  let m := vl_merged v in
  let l := nth m loc 0 - nth m (n_min ni) 0 in
  let subl := l / nth m (subsize v ni) 0 in
  subl / 2 + (subl mod 2) * (nth m (vl_div v) 0 / 2).

(** lattice.cpp 295-302: the loop over the directions, last one first, for
    [subl] and for [i] ([j] is the direction of the list heads). *)
Fixpoint subl_loop (m j : nat) (top : Z) (dv ss mn loc : list Z) : Z :=
  match dv, ss, mn, loc with
  | n :: dv', s :: ss', m0 :: mn', x :: loc' =>
      let acc := subl_loop m (S j) top dv' ss' mn' loc' in
      if (j =? m)%nat then acc else acc * n + (x - m0) / s
  | _, _, _, _ => top
  end.

Fixpoint inner_loop (ss mn loc : list Z) : Z :=
  match ss, mn, loc with
  | s :: ss', m0 :: mn', x :: loc' => inner_loop ss' mn' loc' * s + (x - m0) mod s
  | _, _, _ => 0
  end.

(** lattice.cpp 271-313: [site_index] with SUBNODE_LAYOUT and
    EVEN_SITES_FIRST.  (C++ [/] and [%] agree with [Z.div] and [Z.modulo] on
    the non-negative offsets of a site from the corner of its node.) *)
Definition vsite_index (v : vlattice) (ni : node_info) (loc : list Z) : Z :=
  let subl := subl_loop (vl_merged v) 0 (merged_digit v ni loc) (vl_div v) (subsize v ni) (n_min ni) loc in
  let i := inner_loop (subsize v ni) (n_min ni) loc in
  let i := if even_site loc then i / 2 else i / 2 + n_even ni / number_of_subnodes v in
  subl + number_of_subnodes v * i.

(** lattice.cpp 575-580: filling the [coordinates] array. *)
Fixpoint vfill (v : vlattice) (ni : node_info) (steps : nat) (l : list Z) (arr : Z -> list Z)
  : Z -> list Z :=
  match steps with
  | O => arr
  | S k => vfill v ni k (advance (n_min ni) (n_siz ni) l) (zupd arr (vsite_index v ni l) l)
  end.

Definition vcoordinates (v : vlattice) (ni : node_info) : Z -> list Z :=
  vfill v ni (Z.to_nat (volume ni)) (n_min ni) (fun _ => []).

(** ** Gather tables: lattice.cpp 630-744 with this site index *)

Definition vpass1_step (v : vlattice) (rank : Z) (ni : node_info) (crd : Z -> list Z) (d : Z)
  (s : pass1) (i : Z) : pass1 :=
  let l := crd i in
  let ln := neighbour (vl_lat v) l d in
  if is_on_node ni ln then
    mkPass1 (zupd (p1_neighb s) i (vsite_index v ni ln)) (p1_rank s)
            (p1_from_even s) (p1_from_odd s) (p1_to_even s) (p1_to_odd s)
  else
    mkPass1 (zupd (p1_neighb s) i (volume ni))
            (if p1_rank s =? rank then node_rank (vl_lat v) ln else p1_rank s)
            (p1_from_even s + if even_site l then 1 else 0)
            (p1_from_odd s + if even_site l then 0 else 1)
            (p1_to_even s + if even_site ln then 1 else 0)
            (p1_to_odd s + if even_site ln then 0 else 1).

Definition vrun_pass1 (v : vlattice) (rank : Z) (ni : node_info) (crd : Z -> list Z) (d : Z)
  : pass1 :=
  fold_left (vpass1_step v rank ni crd d) (zrange 0 (Z.to_nat (volume ni)))
            (mkPass1 (fun _ => 0) rank 0 0 0 0).

(** The second pass does not use the site index: [run_pass2] of LayoutModel. *)
Definition vrun_dir (v : vlattice) (rank : Z) (ni : node_info) (crd : Z -> list Z)
  (d c_offset : Z) : dir_pass :=
  let p1 := vrun_pass1 v rank ni crd d in
  let p2 := if 0 <? p1_to_even p1 + p1_to_odd p1 then run_pass2 (vl_lat v) ni crd d c_offset p1
            else mkPass2 (p1_neighb p1) 0 0 0 0 (fun _ => 0) in
  mkDirPass (p2_neighb p2)
            (mkComm (p1_rank p1) (p1_from_even p1) (p1_from_odd p1) c_offset (fun _ => 0))
            (mkComm (p1_rank p1) (p1_to_even p1) (p1_to_odd p1) 0 (p2_sitelist p2)).

Fixpoint vgathers_loop (v : vlattice) (rank : Z) (ni : node_info) (crd : Z -> list Z)
  (ds : list Z) (c_offset : Z) : list dir_pass :=
  match ds with
  | [] => []
  | d :: ds' =>
      let r := vrun_dir v rank ni crd d c_offset in
      r :: vgathers_loop v rank ni crd ds' (c_offset + cn_sites (dp_from r))
  end.

Definition vdir_tables (v : vlattice) (rank d : Z) : dir_pass :=
  let ni := nodeinfo (vl_lat v) rank in
  nth (Z.to_nat d)
      (vgathers_loop v rank ni (vcoordinates v ni) (zrange 0 (Z.to_nat (ndirs (vl_lat v)))) (volume ni))
      empty_pass.

(** [lattice->neighb[d][i]], [nn_comms[d].from_node], [nn_comms[-d].to_node]. *)
Definition vneighb (v : vlattice) (rank d i : Z) : Z := dp_neighb (vdir_tables v rank d) i.
Definition vfrom_node (v : vlattice) (rank d : Z) : comm_node := dp_from (vdir_tables v rank d).
Definition vto_node (v : vlattice) (rank d : Z) : comm_node :=
  dp_to_opp (vdir_tables v rank (opp_dir (Z.of_nat (length (l_size (vl_lat v)))) d)).

(** ** The vectorised lattice structure, lv.h.

    [dbl] tells which of the two instantiations is meant: the element type is
    64 bits wide ([vector_size == VECTOR_SIZE/sizeof(double)]) or 32. *)

Definition vector_size (v : vlattice) (dbl : bool) : Z :=
  if dbl then number_of_subnodes v / 2 else number_of_subnodes v.

Fixpoint upd_nth (k : nat) (f : Z -> Z) (l : list Z) : list Z :=
  match l, k with
  | [], _ => []
  | x :: l', O => f x :: l'
  | x :: l', S k' => x :: upd_nth k' f l'
  end.

(** lv.h 95-97, 108-111: [subdivisions], [subnode_size]. *)
Definition subdivisions (v : vlattice) (dbl : bool) : list Z :=
  if dbl then upd_nth (vl_merged v) (fun x => x / 2) (vl_div v) else vl_div v.
Definition subnode_size (v : vlattice) (dbl : bool) (ni : node_info) : list Z :=
  if dbl then upd_nth (vl_merged v) (fun x => x * 2) (subsize v ni) else subsize v ni.

(** lv.h 94: [v_sites]. *)
Definition v_sites (v : vlattice) (dbl : bool) (ni : node_info) : Z := volume ni / vector_size v dbl.

(** lv.h 68-75: [is_on_first_subnode] (the argument is reduced modulo the
    lattice size first). *)
Definition is_on_first_subnode (v : vlattice) (dbl : bool) (ni : node_info) (c : list Z) : bool :=
  in_box (n_min ni) (subnode_size v dbl ni) (cmod c (l_size (vl_lat v))).

(** lv.h 146: [is_boundary_permutation[abs(d)]]. *)
Definition is_permutation (v : vlattice) (dbl : bool) (d : Z) : bool :=
  1 <? nth (Z.to_nat (abs_dir (Z.of_nat (length (l_size (vl_lat v)))) d)) (subdivisions v dbl) 0.

(** lv.h 149-151: the upper corner of the first subnode. *)
Fixpoint corner (mn sz : list Z) : list Z :=
  match mn, sz with
  | m :: mn', s :: sz' => m + s - 1 :: corner mn' sz'
  | _, _ => []
  end.

(** lv.h 153-167: [boundary_permutation[d]] for an up direction. *)
Definition up_permutation (v : vlattice) (dbl : bool) (rank d i : Z) : Z :=
  let ni := nodeinfo (vl_lat v) rank in
  let idx := vsite_index v ni (corner (n_min ni) (subnode_size v dbl ni)) in
  let h := neighbour (vl_lat v) (vcoordinates v ni (idx + i)) d in
  let nn := vsite_index v (nodeinfo (vl_lat v) (node_rank (vl_lat v) h)) h in
  nn mod vector_size v dbl.

(** lv.h 169-171: the permutation of the opposite direction, entry by entry. *)
Definition down_permutation (v : vlattice) (dbl : bool) (rank d : Z) : Z -> Z :=
  fold_left (fun p i => zupd p (up_permutation v dbl rank d i) i)
            (zrange 0 (Z.to_nat (vector_size v dbl))) (fun _ => 0).

Definition boundary_permutation (v : vlattice) (dbl : bool) (rank d : Z) : Z -> Z :=
  let n := Z.of_nat (length (l_size (vl_lat v))) in
  if is_up_dir n d then up_permutation v dbl rank d
  else down_permutation v dbl rank (opp_dir n d).

(** lv.h 195-201: [only_local_boundary_copy[d]]. *)
Definition only_local (v : vlattice) (dbl : bool) (d : Z) : bool :=
  (nth (Z.to_nat (abs_dir (Z.of_nat (length (l_size (vl_lat v)))) d)) (n_divisions (vl_lat v)) 0 =? 1)
  && negb (is_permutation v dbl d).

(** lv.h 209-231: does vector [i] of direction [d] get a halo slot? *)
Definition goes_to_halo (v : vlattice) (dbl : bool) (rank d i : Z) : bool :=
  let lat := vl_lat v in
  let n := Z.of_nat (length (l_size lat)) in
  let ni := nodeinfo lat rank in
  let here := vcoordinates v ni (vector_size v dbl * i) in
  let ad := Z.to_nat (abs_dir n d) in
  if is_on_first_subnode v dbl ni (add_dir here d) then
    only_local v dbl d &&
    ((is_up_dir n d && (nth ad here 0 =? nth ad (l_size lat) 0 - 1)) ||
     (is_up_dir n (opp_dir n d) && (nth ad here 0 =? 0)))
  else true.

(** lv.h 208-232: one direction of the neighbour loop; state is [c_offset] and
    the array [neighbours[d]]. *)
Definition neighbours_step (v : vlattice) (dbl : bool) (rank d : Z) (s : Z * (Z -> Z)) (i : Z)
  : Z * (Z -> Z) :=
  if goes_to_halo v dbl rank d i then (fst s + 1, zupd (snd s) i (fst s))
  else (fst s, zupd (snd s) i (vneighb v rank d (vector_size v dbl * i) / vector_size v dbl)).

Definition neighbours_dir (v : vlattice) (dbl : bool) (rank d c_offset : Z) : Z * (Z -> Z) :=
  let ni := nodeinfo (vl_lat v) rank in
  fold_left (neighbours_step v dbl rank d) (zrange 0 (Z.to_nat (v_sites v dbl ni)))
            (c_offset, fun _ => 0).

(** lv.h 203-207: [halo_offset[d]], the value of [c_offset] before direction
    [d] (the directions 0 .. d-1 have been done). *)
Definition halo_offset (v : vlattice) (dbl : bool) (rank d : Z) : Z :=
  fold_left (fun c e => fst (neighbours_dir v dbl rank e c)) (zrange 0 (Z.to_nat d))
            (v_sites v dbl (nodeinfo (vl_lat v) rank)).

(** lv.h 209-231: [neighbours[d]]; 233: [n_halo_vectors[d]]. *)
Definition neighbours (v : vlattice) (dbl : bool) (rank d : Z) : Z -> Z :=
  snd (neighbours_dir v dbl rank d (halo_offset v dbl rank d)).
Definition n_halo_vectors (v : vlattice) (dbl : bool) (rank d : Z) : Z :=
  fst (neighbours_dir v dbl rank d (halo_offset v dbl rank d)) - halo_offset v dbl rank d.

(** lv.h 250-259: the first lane of vector [i] with an on-node neighbour; -1 if
    there is none (the code then asserts). *)
Fixpoint scan_lanes (v : vlattice) (dbl : bool) (rank d i : Z) (ks : list Z) : Z :=
  match ks with
  | [] => -1
  | k :: ks' =>
      let nb := vneighb v rank d (i * vector_size v dbl + k) in
      if nb <? volume (nodeinfo (vl_lat v) rank) then nb / vector_size v dbl
      else scan_lanes v dbl rank d i ks'
  end.

(** lv.h 241-281: [halo_index[d]], as a list. *)
Definition halo_index (v : vlattice) (dbl : bool) (rank d : Z) : list Z :=
  let ni := nodeinfo (vl_lat v) rank in
  let is := filter (fun i => v_sites v dbl ni <=? neighbours v dbl rank d i)
                   (zrange 0 (Z.to_nat (v_sites v dbl ni))) in
  if (0 <? n_halo_vectors v dbl rank d) && is_permutation v dbl d then
    map (fun i => scan_lanes v dbl rank d i (zrange 0 (Z.to_nat (vector_size v dbl)))) is
  else if only_local v dbl d then
    map (fun i => vneighb v rank d (i * vector_size v dbl) / vector_size v dbl) is
  else [].

(** lv.h 293-329: [recv_list[d]], as a list.  (The code reserves
    volume/size[abs(d)] entries and asserts that this many are stored.) *)
Definition recv_list (v : vlattice) (dbl : bool) (rank d : Z) : list Z :=
  let lat := vl_lat v in
  let ni := nodeinfo lat rank in
  let w := vector_size v dbl in
  if is_permutation v dbl d &&
     (1 <? nth (Z.to_nat (abs_dir (Z.of_nat (length (l_size lat))) d)) (n_divisions lat) 0) then
    map (fun i => neighbours v dbl rank d (i / w) * w + i mod w)
        (filter (fun i => volume ni <=? vneighb v rank d i) (zrange 0 (Z.to_nat (volume ni))))
  else [].

(** ** Halo update of a vectorised field

    A field is modelled by its elements: position [k] stands for lane
    [k mod vector_size] of vector [k / vector_size].  The order of the
    components of a multi-component element inside a vector (fs.h 46-128) is
    the subject of VectorModel (C35): every function below moves all
    components alike. *)
Section Halo.
  Variable T : Type.

  (** fs.h 196-254: [set_local_boundary_elements], one halo vector. *)
  Definition copy_vector (w t s : Z) (perm : Z -> Z) (f : T -> T) (mem : Z -> T) : Z -> T :=
    fold_left (fun m i => zupd m (t * w + i) (f (m (s * w + perm i))))
              (zrange 0 (Z.to_nat w)) mem.

  (** fs.h 193-254; [f] is the identity, or the negation if [antiperiodic]. *)
  Definition set_local_boundary (v : vlattice) (dbl : bool) (rank d : Z) (p : parity) (f : T -> T)
    (mem : Z -> T) : Z -> T :=
    if is_permutation v dbl d || only_local v dbl d then
      let n := n_halo_vectors v dbl rank d in
      let start := match p with ODD => n / 2 | _ => 0 end in
      let stop := match p with EVEN => n / 2 | _ => n end in
      let perm := if is_permutation v dbl d then boundary_permutation v dbl rank d else fun i => i in
      fold_left (fun m idx => copy_vector (vector_size v dbl) (idx + halo_offset v dbl rank d)
                                (nth (Z.to_nat idx) (halo_index v dbl rank d) 0) perm f m)
                (zrange start (Z.to_nat (stop - start))) mem
    else mem.

  (** fs.h 331-352: [place_recv_elements]. *)
  Definition place_recv (v : vlattice) (dbl : bool) (rank d : Z) (p : parity) (buffer : Z -> T)
    (mem : Z -> T) : Z -> T :=
    let size := Z.of_nat (length (recv_list v dbl rank d)) in
    let start := match p with ODD => size / 2 | _ => 0 end in
    let n := match p with ALL => size | _ => size / 2 end in
    fold_left (fun m i => zupd m (nth (Z.to_nat (i + start)) (recv_list v dbl rank d) 0) (buffer i))
              (zrange 0 (Z.to_nat n)) mem.

  (** field_comm.h 151-168: a direction without permutation receives straight
      into the halo, from [halo_offset * vector_size] on. *)
  Definition place_direct (v : vlattice) (dbl : bool) (rank d : Z) (p : parity) (buffer : Z -> T)
    (mem : Z -> T) : Z -> T :=
    let from := vfrom_node v rank d in
    let offs := match p with ODD => cn_even from | _ => 0 end in
    fold_left (fun m i => zupd m (halo_offset v dbl rank d * vector_size v dbl + offs + i) (buffer i))
              (zrange 0 (Z.to_nat (n_sites from p))) mem.

  (** fs.h 132-138 and 284-319: the elements a rank sends.  With a permutation
      they are gathered one by one; without, whole vectors are copied, the
      i-th one from [index_list[i]] on, for every [vector_size]-th i. *)
  Definition pack (v : vlattice) (dbl : bool) (rank d : Z) (p : parity) (mem : Z -> T) (i : Z) : T :=
    let list := get_sitelist (vto_node v rank d) p in
    let w := vector_size v dbl in
    if is_permutation v dbl d then mem (nth (Z.to_nat i) list 0)
    else mem (nth (Z.to_nat (i / w * w)) list 0 + i mod w).

  (** field_comm.h 486-600, 630-695 for one direction: [start_gather] sends and
      copies the local boundary, [wait_gather] places what was received from
      [from_node].  The message of rank [from.rank] is what that rank packed
      for the opposite direction.  [neg q] tells whether rank [q] applies the
      antiperiodic sign ([f]): the sender when it is on the edge opposite to
      [d], the receiver when it is on the edge in direction [d]. *)
  Definition vgather (v : vlattice) (dbl : bool) (d : Z) (p : parity)
    (fsend flocal : Z -> T -> T) (st : Z -> Z -> T) (rank : Z) : Z -> T :=
    let from := vfrom_node v rank d in
    let mem := set_local_boundary v dbl rank d p (flocal rank) (st rank) in
    if cn_rank from =? rank then mem
    else
      let sender := cn_rank from in
      let buffer := fun i => fsend sender (pack v dbl sender d p (st sender) i) in
      if is_permutation v dbl d then place_recv v dbl rank d p buffer mem
      else place_direct v dbl rank d p buffer mem.
End Halo.

(** field.h: the neighbour of a site as the site loop reads it, vector
    [neighbours[d][vector]], same lane. *)
Definition read_position (v : vlattice) (dbl : bool) (rank d i : Z) : Z :=
  let w := vector_size v dbl in neighbours v dbl rank d (i / w) * w + i mod w.

(** lattice.h 134-137: [is_on_edge]. *)
Definition is_on_edge (lat : lattice) (rank d : Z) : bool :=
  let n := Z.of_nat (length (l_size lat)) in
  let ni := nodeinfo lat rank in
  let a := Z.to_nat (abs_dir n d) in
  if is_up_dir n d then nth a (n_min ni) 0 + nth a (n_siz ni) 0 =? nth a (l_size lat) 0
  else nth a (n_min ni) 0 =? 0.

(** field_comm.h 37-62 and 116-125 with an antiperiodic boundary condition in
    direction [d]: the sender negates what it sends if it is on the edge
    opposite to [d], the receiver negates its local boundary copies if it is on
    the edge [d]. *)
Definition vgather_anti (T : Type) (neg : T -> T) (v : vlattice) (dbl : bool) (d : Z) (p : parity)
  (st : Z -> Z -> T) (rank : Z) : Z -> T :=
  let lat := vl_lat v in
  vgather T v dbl d p
    (fun q x => if is_on_edge lat q (opp_dir (Z.of_nat (length (l_size lat))) d) then neg x else x)
    (fun q x => if is_on_edge lat q d then neg x else x) st rank.
