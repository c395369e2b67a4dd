(** Model of the copies of a rank's own sites to and from an array, with and
    without the surrounding layer of sites of other ranks, and of the collection
    of a box or a slice of the field.  Line numbers refer to
    /repo/libraries/plumbing/field_comm.h.

    A field is a function rank -> local index -> value.  Arrays are functions of
    their index; the contents an array has before the call are an argument.
    [unsigned] arithmetic is on the integers.  CPU code only: on a GPU the same
    loops fill an array that is then copied to the host. *)
From Verif Require Import Common LayoutModel ElementModel.

Section Local.
  Variable V : Type.

  (** [nodec.dot(nmul)]. *)
  Fixpoint dot (a b : list Z) : Z :=
    match a, b with
    | x :: a', y :: b' => x * y + dot a' b'
    | _, _ => 0
    end.

  (** [X.coordinates() - nmin]. *)
  Fixpoint minus (a b : list Z) : list Z :=
    match a, b with
    | x :: a', y :: b' => (x - y) :: minus a' b'
    | _, _ => []
    end.

  (** 1143-1147 and 1207-1211: the vector [nmul] of the products of the lower
      sizes, also [size_factor] of lattice.cpp 559-563. *)
  Fixpoint multipliers (v : Z) (sz : list Z) : list Z :=
    match sz with
    | [] => []
    | s :: sz' => v :: multipliers (v * s) sz'
    end.

  (** 1069-1097 [copy_local_data] on the rank with box [ni] and local values [vals]. *)
  Definition copy_local_data (ni : node_info) (vals old : Z -> V) : Z -> V :=
    let nmul := multipliers 1 (n_siz ni) in
    fold_left (fun data i =>
                 let nodec := minus (coordinates ni i) (n_min ni) in
                 zupd data (dot nodec nmul) (vals i))
              (loop_indices ni ALL) old.

  (** 1102-1130 [set_local_data]; [None] is the failed assertion on the size of
      the buffer. *)
  Definition set_local_data (ni : node_info) (buffer_size : Z) (buffer vals : Z -> V)
    : option (Z -> V) :=
    let nmul := multipliers 1 (n_siz ni) in
    if buffer_size <? volume ni then None
    else Some (fold_left (fun vals i =>
                            let nodec := minus (coordinates ni i) (n_min ni) in
                            zupd vals i (buffer (dot nodec nmul)))
                         (loop_indices ni ALL) vals).

  (** The value of [src] at the neighbour in direction [d] of the site [c]; the
      gathering of values of other ranks is the subject of the gather model. *)
  Definition neighbour_value (lat : lattice) (src : rank_store V) (c : list Z) (d : Z) : V :=
    let c' := neighbour lat c d in
    let r := node_rank lat c' in
    src r (site_index (nodeinfo lat r) c').

  (** 1141-1147, 1203-1211: index of [c] in the array with the halo. *)
  Definition halo_index (ni : node_info) (c : list Z) : Z :=
    dot (minus c (map (fun m => m - 1) (n_min ni)))
        (multipliers 1 (map (fun s => s + 2) (n_siz ni))).

  (** 1150-1155: [node_max]. *)
  Definition node_max (ni : node_info) (d : nat) : Z := nth d (n_min ni) 0 + nth d (n_siz ni) 0 - 1.

  (** 1163-1171: one direction of the loop over [dirs]; the pair is ([c], [gotit]). *)
  Definition move_out (ni : node_info) (s : list Z * bool) (d : nat) : list Z * bool :=
    let '(c, gotit) := s in
    if nth d c 0 =? nth d (n_min ni) 0 then (add_at d (-1) c, gotit)
    else if nth d c 0 =? node_max ni d then (add_at d 1 c, gotit)
    else (c, false).

  (** 1158-1187: one site of [collect_field_halo_data_], [dirs] being the first
      [ndir] directions and [d] the last one.  The pair is ([dest], [data]) of
      this rank; [src] and [dest] are different fields. *)
  Definition collect_site (lat : lattice) (ni : node_info) (dirs : list nat) (d : nat)
    (src : rank_store V) (s : (Z -> V) * (Z -> V)) (i : Z) : (Z -> V) * (Z -> V) :=
    let '(dest, data) := s in
    let X := coordinates ni i in
    let n := Z.of_nat (length X) in
    let '(c, gotit) := fold_left (move_out ni) dirs (X, true) in
    if gotit && (nth d c 0 =? nth d (n_min ni) 0) then
      let v := neighbour_value lat src X (opp_dir n (Z.of_nat d)) in
      (zupd dest i v, zupd data (halo_index ni (add_at d (-1) c)) v)
    else if gotit && (nth d c 0 =? node_max ni d) then
      let v := neighbour_value lat src X (Z.of_nat d) in
      (zupd dest i v, zupd data (halo_index ni (add_at d 1 c)) v)
    else (dest, data).

  (** 1136-1190 [collect_field_halo_data_], on all ranks. *)
  Definition collect (lat : lattice) (dirs : list nat) (d : nat) (src : rank_store V)
    (dest data : rank_store V) : rank_store V * rank_store V :=
    let res := fun r =>
      let ni := nodeinfo lat r in
      fold_left (collect_site lat ni dirs d src) (loop_indices ni ALL) (dest r, data r) in
    (fun r => fst (res r), fun r => snd (res r)).

  (** 1230-1268: the nested loops over d1 < d2 < ..., one recursion level for
      each.  [dirs] are the directions of the outer loops, the current loop has
      the [m] directions n-m .. n-1 left.  [corners k] is the k-th of the fields
      [corners], [corner2], ...  The code has at most NDIM = 4 loops by [#if]. *)
  Definition level_source (st : rank_store V) (corners : nat -> rank_store V) (k : nat)
    : rank_store V := match k with O => st | S k' => corners k' end.

  Definition set_level (corners : nat -> rank_store V) (k : nat) (f : rank_store V)
    : nat -> rank_store V := fun j => if Nat.eqb j k then f else corners j.

  Fixpoint halo_loop (lat : lattice) (st : rank_store V) (n m : nat) (dirs : list nat)
    (s : (nat -> rank_store V) * rank_store V) : (nat -> rank_store V) * rank_store V :=
    match m with
    | O => s
    | S m' =>
        let d := (n - m)%nat in
        let k := length dirs in
        let '(corners, data) := s in
        let '(dest, data1) := collect lat dirs d (level_source st corners k) (corners k) data in
        let s2 := halo_loop lat st n m' (dirs ++ [d]) (set_level corners k dest, data1) in
        halo_loop lat st n m' dirs s2
    end.

  (** 1219-1226: the bulk of the array, on all ranks. *)
  Definition copy_bulk (lat : lattice) (st old : rank_store V) : rank_store V :=
    fun r =>
      let ni := nodeinfo lat r in
      fold_left (fun data i => zupd data (halo_index ni (coordinates ni i)) (st r i))
                (loop_indices ni ALL) (old r).

  (** 1197-1278 [copy_local_data_with_halo] on all ranks: the arrays of all
      ranks.  [zero] is the initial value of the fields [corners], .... *)
  Definition copy_local_data_with_halo (lat : lattice) (zero : V) (st old : rank_store V)
    : rank_store V :=
    let n := length (l_size lat) in
    snd (halo_loop lat st n n [] (fun _ _ _ => zero, copy_bulk lat st old)).

  (** lattice.h 695-725 [forcoordinaterange]: the loop over the first direction
      is the innermost. *)
  Fixpoint coordinate_range (cmin cmax : list Z) : list (list Z) :=
    match cmin, cmax with
    | a :: cmin', b :: cmax' =>
        flat_map (fun rest => map (fun x => x :: rest) (zrange a (Z.to_nat (b - a + 1))))
                 (coordinate_range cmin' cmax')
    | _, _ => [[]]
    end.

  (** 1024-1028: the assertions on the range. *)
  Fixpoint range_ok (ls cmin cmax : list Z) : bool :=
    match ls, cmin, cmax with
    | L :: ls', a :: cmin', b :: cmax' => (a <=? b) && (0 <=? a) && (b <? L) && range_ok ls' cmin' cmax'
    | [], [], [] => true
    | _, _, _ => false
    end.

  (** 1019-1037 [get_subvolume] on rank [r]; [None] is a failed assertion. *)
  Definition get_subvolume (lat : lattice) (cmin cmax : list Z) (bcast : bool) (st : rank_store V)
    (r : Z) : option (list V) :=
    if range_ok (l_size lat) cmin cmax
    then get_elements lat (coordinate_range cmin cmax) bcast st r
    else None.

  (** 1039-1053 [get_range_from_slice]. *)
  Fixpoint slice_min (slice : list Z) : list Z :=
    match slice with
    | [] => []
    | s :: slice' => (if s <? 0 then 0 else s) :: slice_min slice'
    end.

  Fixpoint slice_max (ls slice : list Z) : list Z :=
    match ls, slice with
    | L :: ls', s :: slice' => (if s <? 0 then L - 1 else s) :: slice_max ls' slice'
    | _, _ => []
    end.

  (** 1055-1061 [get_slice]. *)
  Definition get_slice (lat : lattice) (slice : list Z) (bcast : bool) (st : rank_store V) (r : Z)
    : option (list V) :=
    get_subvolume lat (slice_min slice) (slice_max (l_size lat) slice) bcast st r.
End Local.
Arguments copy_local_data {V}.
Arguments set_local_data {V}.
Arguments neighbour_value {V}.
Arguments collect_site {V}.
Arguments collect {V}.
Arguments level_source {V}.
Arguments set_level {V}.
Arguments halo_loop {V}.
Arguments copy_bulk {V}.
Arguments copy_local_data_with_halo {V}.
Arguments get_subvolume {V}.
Arguments get_slice {V}.
