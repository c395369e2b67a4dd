(** Model of the lattice layout code: division of the lattice among ranks,
    site ordering inside a rank, neighbour tables, halo exchange lists.

    All line numbers refer to /repo/libraries/plumbing.  Coordinate vectors are
    lists of integers, one per direction, so NDIM is arbitrary.  C++ integer
    overflow is not modelled here: the code stops the program if a rank would
    hold 2^32 sites or more (lattice.cpp 337-340, 727-728). *)
From Verif Require Import Common.

(** ** Coordinates and directions *)

(** coordinates.h 257-262: [pmod].  C++ [%] truncates, like [Z.rem]. *)
Definition pmod (a b : Z) : Z :=
  let r := Z.rem a b in if r <? 0 then r + b else r.

(** coordinates.h 518-524: [CoordinateVector::mod]. *)
Fixpoint cmod (c m : list Z) : list Z :=
  match c, m with
  | x :: c', y :: m' => pmod x y :: cmod c' m'
  | _, _ => []
  end.

(** coordinates.h 423-431: [parity()] is EVEN iff the coordinate sum is even. *)
Definition even_site (c : list Z) : bool := Z.rem (zsum c) 2 =? 0.

(** coordinates.h 82-88: [opp_dir]; directions are 0 .. 2*NDIM-1. *)
Definition opp_dir (ndim d : Z) : Z := 2 * ndim - 1 - d.

(** coordinates.h 100-105: [is_up_dir]. *)
Definition is_up_dir (ndim d : Z) : bool := d <? ndim.

(** coordinates.h 107-112: [abs(Direction)]. *)
Definition abs_dir (ndim d : Z) : Z := if is_up_dir ndim d then d else opp_dir ndim d.

(** Element update [e(k) += v]. *)
Fixpoint add_at (k : nat) (v : Z) (c : list Z) : list Z :=
  match c, k with
  | [], _ => []
  | x :: c', O => (x + v) :: c'
  | x :: c', S k' => x :: add_at k' v c'
  end.

(** coordinates.h 468-474: [CoordinateVector += Direction]. *)
Definition add_dir (c : list Z) (d : Z) : list Z :=
  let n := Z.of_nat (length c) in
  if is_up_dir n d then add_at (Z.to_nat d) 1 c
  else add_at (Z.to_nat (opp_dir n d)) (-1) c.

(** coordinates.h 476-482: [CoordinateVector -= Direction]. *)
Definition sub_dir (c : list Z) (d : Z) : list Z :=
  let n := Z.of_nat (length c) in
  if is_up_dir n d then add_at (Z.to_nat d) (-1) c
  else add_at (Z.to_nat (opp_dir n d)) 1 c.

(** ** The lattice and its division *)

(** lattice.h [lattice_struct::l_size], [allnodes::n_divisions],
    [allnodes::map_array], [allnodes::map_inverse] (as look-up functions). *)
Record lattice : Type := mkLattice {
  l_size : list Z;
  n_divisions : list Z;
  remap : Z -> Z;
  inverse_remap : Z -> Z
}.

(** [hila::number_of_nodes()]; equal to the product of the divisions
    (setup_layout divides by every prime factor of the number of ranks). *)
Definition number_of_nodes (lat : lattice) : Z := zprod (n_divisions lat).

(** lattice.cpp 104-112: the logical node index, highest direction first
    (the recursion visits the last direction innermost, as the C++ loop does). *)
Fixpoint logical_node (ls nd loc : list Z) : Z :=
  match ls, nd, loc with
  | L :: ls', n :: nd', x :: loc' => logical_node ls' nd' loc' * n + (x * n) / L
  | _, _, _ => 0
  end.

(** lattice.cpp 104-118: [node_rank]. *)
Definition node_rank (lat : lattice) (loc : list Z) : Z :=
  remap lat (logical_node (l_size lat) (n_divisions lat) loc).

(** lattice.cpp 125-142: [setup_node_divisors], one direction.  The C++ code
    stores [divisors[++n] = i] while [n < i*ndiv/L]: positions are filled
    consecutively, so the table is the list of stored values. [steps] is the
    number of remaining loop iterations. *)
Fixpoint divisors_loop (L nd i n : Z) (steps : nat) : list Z :=
  match steps with
  | O => []
  | S k =>
      let t := (i * nd) / L in
      repeat i (Z.to_nat (t - n)) ++ divisors_loop L nd (i + 1) (Z.max n t) k
  end.

Definition divisors (L nd : Z) : list Z := divisors_loop L nd 0 (-1) (S (Z.to_nat L)).

(** [divisors[dir].at(k)] *)
Definition divisor (L nd k : Z) : Z := nth (Z.to_nat k) (divisors L nd) 0.

(** lattice.cpp 325-357: [nodeinfo], the box of the node with logical index
    [id]: per direction the minimum and the size. *)
Fixpoint node_min (ls nd : list Z) (id : Z) : list Z :=
  match ls, nd with
  | L :: ls', n :: nd' => divisor L n (id mod n) :: node_min ls' nd' (id / n)
  | _, _ => []
  end.

Fixpoint node_size (ls nd : list Z) (id : Z) : list Z :=
  match ls, nd with
  | L :: ls', n :: nd' =>
      (divisor L n (id mod n + 1) - divisor L n (id mod n)) :: node_size ls' nd' (id / n)
  | _, _ => []
  end.

Record node_info : Type := mkNode {
  n_min : list Z;
  n_siz : list Z;
  n_even : Z;
  n_odd : Z
}.

(** lattice.cpp 342-354: even and odd site counts of a box. *)
Definition count_sites (mn sz : list Z) : node_info :=
  let vol := zprod sz in
  if vol mod 2 =? 0 then mkNode mn sz (vol / 2) (vol / 2)
  else if even_site mn then mkNode mn sz (vol / 2 + 1) (vol / 2)
  else mkNode mn sz (vol / 2) (vol / 2 + 1).

(** lattice.cpp 325-357: [nodeinfo(rank)]. *)
Definition nodeinfo (lat : lattice) (rank : Z) : node_info :=
  let id := inverse_remap lat rank in
  count_sites (node_min (l_size lat) (n_divisions lat) id)
              (node_size (l_size lat) (n_divisions lat) id).

(** lattice.cpp 555: [volume = evensites + oddsites]. *)
Definition volume (ni : node_info) : Z := n_even ni + n_odd ni.

(** lattice.cpp 149-158: [is_on_mynode]. *)
Fixpoint in_box (mn sz loc : list Z) : bool :=
  match mn, sz, loc with
  | m :: mn', s :: sz', x :: loc' => (0 <=? x - m) && (x - m <? s) && in_box mn' sz' loc'
  | [], [], [] => true
  | _, _, _ => false
  end.

Definition is_on_node (ni : node_info) (loc : list Z) : bool := in_box (n_min ni) (n_siz ni) loc.

(** lattice.cpp 394-401 [get_logical_index], with the [size_factor] prefix
    products of 560-566 accumulated in [v]. *)
Fixpoint logical_index_acc (v : Z) (mn sz loc : list Z) : Z :=
  match mn, sz, loc with
  | m :: mn', s :: sz', x :: loc' => (x - m) * v + logical_index_acc (v * s) mn' sz' loc'
  | _, _, _ => 0
  end.

Definition get_logical_index (ni : node_info) (loc : list Z) : Z :=
  logical_index_acc 1 (n_min ni) (n_siz ni) loc.

(** lattice.cpp 171-185: [site_index] with EVEN_SITES_FIRST (the default). *)
Definition site_index (ni : node_info) (loc : list Z) : Z :=
  let i := get_logical_index ni loc in
  if even_site loc then i / 2 else i / 2 + n_even ni.

(** lattice.cpp 409-415: [advance_local_coordinate]. *)
Fixpoint advance (mn sz l : list Z) : list Z :=
  match mn, sz, l with
  | m :: mn', s :: sz', x :: l' =>
      if x + 1 <? m + s then (x + 1) :: l' else m :: advance mn' sz' l'
  | _, _, _ => l
  end.

(** lattice.cpp 575-580: filling the [coordinates] array. *)
Fixpoint fill_coordinates (ni : node_info) (steps : nat) (l : list Z) (arr : Z -> list Z)
  : Z -> list Z :=
  match steps with
  | O => arr
  | S k => fill_coordinates ni k (advance (n_min ni) (n_siz ni) l)
                            (zupd arr (site_index ni l) l)
  end.

Definition coordinates (ni : node_info) : Z -> list Z :=
  fill_coordinates ni (Z.to_nat (volume ni)) (n_min ni) (fun _ => []).

(** coordinates.h: Parity values (none = 0 is not a loop parity). *)
Inductive parity : Type := EVEN | ODD | ALL.

(** lattice.h 312-324: [loop_begin], [loop_end]. *)
Definition loop_begin (ni : node_info) (p : parity) : Z :=
  match p with ODD => n_even ni | _ => 0 end.
Definition loop_end (ni : node_info) (p : parity) : Z :=
  match p with EVEN => n_even ni | _ => volume ni end.

(** The index list visited by a site loop [onsites(p)] on one rank. *)
Definition loop_indices (ni : node_info) (p : parity) : list Z :=
  zrange (loop_begin ni p) (Z.to_nat (loop_end ni p - loop_begin ni p)).

(** ** Neighbour tables and halo lists: lattice.cpp 620-744 *)

(** lattice.cpp 660: [ln = (l + d).mod(l_size)]. *)
Definition neighbour (lat : lattice) (l : list Z) (d : Z) : list Z :=
  cmod (add_dir l d) (l_size lat).

(** First pass over the sites of one direction (lattice.cpp 655-689). *)
Record pass1 : Type := mkPass1 {
  p1_neighb : Z -> Z;
  p1_rank : Z;
  p1_from_even : Z;
  p1_from_odd : Z;
  p1_to_even : Z;
  p1_to_odd : Z
}.

Definition pass1_step (lat : lattice) (rank : Z) (ni : node_info) (crd : Z -> list Z) (d : Z)
  (s : pass1) (i : Z) : pass1 :=
  let l := crd i in
  let ln := neighbour lat l d in
  if is_on_node ni ln then
    mkPass1 (zupd (p1_neighb s) i (site_index ni ln)) (p1_rank s)
            (p1_from_even s) (p1_from_odd s) (p1_to_even s) (p1_to_odd s)
  else
    mkPass1 (zupd (p1_neighb s) i (volume ni))
            (if p1_rank s =? rank then node_rank lat ln else p1_rank s)
            (p1_from_even s + if even_site l then 1 else 0)
            (p1_from_odd s + if even_site l then 0 else 1)
            (p1_to_even s + if even_site ln then 1 else 0)
            (p1_to_odd s + if even_site ln then 0 else 1).

Definition run_pass1 (lat : lattice) (rank : Z) (ni : node_info) (crd : Z -> list Z) (d : Z)
  : pass1 :=
  fold_left (pass1_step lat rank ni crd d) (zrange 0 (Z.to_nat (volume ni)))
            (mkPass1 (fun _ => 0) rank 0 0 0 0).

(** Second pass (lattice.cpp 699-732): halo slots of the off-node neighbours and
    the list of the sites to send. *)
Record pass2 : Type := mkPass2 {
  p2_neighb : Z -> Z;
  p2_from_even : Z;
  p2_from_odd : Z;
  p2_to_even : Z;
  p2_to_odd : Z;
  p2_sitelist : Z -> Z
}.

Definition pass2_step (lat : lattice) (ni : node_info) (crd : Z -> list Z) (d c_offset : Z)
  (p1 : pass1) (s : pass2) (i : Z) : pass2 :=
  if p2_neighb s i =? volume ni then
    let l := crd i in
    let ln := neighbour lat l d in
    let nb := if even_site l then zupd (p2_neighb s) i (c_offset + p2_from_even s)
              else zupd (p2_neighb s) i (c_offset + p1_from_even p1 + p2_from_odd s) in
    let sl := if even_site ln then zupd (p2_sitelist s) (p2_to_even s) i
              else zupd (p2_sitelist s) (p2_to_odd s + p1_to_even p1) i in
    mkPass2 nb
            (p2_from_even s + if even_site l then 1 else 0)
            (p2_from_odd s + if even_site l then 0 else 1)
            (p2_to_even s + if even_site ln then 1 else 0)
            (p2_to_odd s + if even_site ln then 0 else 1)
            sl
  else s.

Definition run_pass2 (lat : lattice) (ni : node_info) (crd : Z -> list Z) (d c_offset : Z)
  (p1 : pass1) : pass2 :=
  fold_left (pass2_step lat ni crd d c_offset p1) (zrange 0 (Z.to_nat (volume ni)))
            (mkPass2 (p1_neighb p1) 0 0 0 0 (fun _ => 0)).

(** lattice.h 162-205: [comm_node_struct]. *)
Record comm_node : Type := mkComm {
  cn_rank : Z;
  cn_even : Z;
  cn_odd : Z;
  cn_buffer : Z;
  cn_sitelist : Z -> Z
}.

Definition cn_sites (c : comm_node) : Z := cn_even c + cn_odd c.

(** lattice.h 168-178: [get_sitelist(par, size)], as a list. *)
Definition get_sitelist (c : comm_node) (p : parity) : list Z :=
  match p with
  | ALL => map (cn_sitelist c) (zrange 0 (Z.to_nat (cn_sites c)))
  | EVEN => map (cn_sitelist c) (zrange 0 (Z.to_nat (cn_even c)))
  | ODD => map (fun k => cn_sitelist c (cn_even c + k)) (zrange 0 (Z.to_nat (cn_odd c)))
  end.

(** lattice.h 181-189: [n_sites]. *)
Definition n_sites (c : comm_node) (p : parity) : Z :=
  match p with ALL => cn_sites c | EVEN => cn_even c | ODD => cn_odd c end.

(** lattice.h 201-207: [offset]. *)
Definition cn_offset (c : comm_node) (p : parity) : Z :=
  match p with ODD => cn_buffer c + cn_even c | _ => cn_buffer c end.

(** Everything one pass of the direction loop produces. The halo of direction
    [d] is [from_node]; the list is that of [to_node] of the opposite
    direction. The second pass is skipped if nothing is sent (line 696); it
    would then change nothing. *)
Record dir_pass : Type := mkDirPass {
  dp_neighb : Z -> Z;
  dp_from : comm_node;
  dp_to_opp : comm_node
}.

Definition run_dir (lat : lattice) (rank : Z) (ni : node_info) (crd : Z -> list Z)
  (d c_offset : Z) : dir_pass :=
  let p1 := run_pass1 lat rank ni crd d in
  let p2 := if 0 <? p1_to_even p1 + p1_to_odd p1 then run_pass2 lat ni crd d c_offset p1
            else mkPass2 (p1_neighb p1) 0 0 0 0 (fun _ => 0) in
  mkDirPass (p2_neighb p2)
            (mkComm (p1_rank p1) (p1_from_even p1) (p1_from_odd p1) c_offset (fun _ => 0))
            (mkComm (p1_rank p1) (p1_to_even p1) (p1_to_odd p1) 0 (p2_sitelist p2)).

(** lattice.cpp 630-744: the loop over the directions, advancing [c_offset]. *)
Fixpoint gathers_loop (lat : lattice) (rank : Z) (ni : node_info) (crd : Z -> list Z)
  (ds : list Z) (c_offset : Z) : list dir_pass :=
  match ds with
  | [] => []
  | d :: ds' =>
      let r := run_dir lat rank ni crd d c_offset in
      r :: gathers_loop lat rank ni crd ds' (c_offset + cn_sites (dp_from r))
  end.

Definition ndirs (lat : lattice) : Z := 2 * Z.of_nat (length (l_size lat)).

Definition empty_comm : comm_node := mkComm 0 0 0 0 (fun _ => 0).
Definition empty_pass : dir_pass := mkDirPass (fun _ => 0) empty_comm empty_comm.

Definition create_std_gathers (lat : lattice) (rank : Z) : list dir_pass :=
  let ni := nodeinfo lat rank in
  gathers_loop lat rank ni (coordinates ni) (zrange 0 (Z.to_nat (ndirs lat))) (volume ni).

Definition dir_tables (lat : lattice) (rank d : Z) : dir_pass :=
  nth (Z.to_nat d) (create_std_gathers lat rank) empty_pass.

(** [neighb[d][i]], [nn_comminfo[d].from_node], [nn_comminfo[d].to_node] on a rank. *)
Definition neighb (lat : lattice) (rank d : Z) : Z -> Z := dp_neighb (dir_tables lat rank d).
Definition from_node (lat : lattice) (rank d : Z) : comm_node := dp_from (dir_tables lat rank d).
Definition to_node (lat : lattice) (rank d : Z) : comm_node :=
  dp_to_opp (dir_tables lat rank (opp_dir (Z.of_nat (length (l_size lat))) d)).

(** [mynode.field_alloc_size] (lattice.cpp 740): where the last halo ends. *)
Definition field_alloc_size (lat : lattice) (rank : Z) : Z :=
  volume (nodeinfo lat rank) +
  zsum (map (fun d => cn_sites (from_node lat rank d)) (zrange 0 (Z.to_nat (ndirs lat)))).

(** ** The exchange: field_comm.h 16-30 (pack: buffer[j] = field[sitelist[j]],
    backend_cpu/field_storage_backend.h [gather_elements]), 487-591 (send and
    receive), 132-140 (the CPU build receives straight into the halo part of
    the field array).  A multi-rank field is a function rank -> index -> value. *)
Section Exchange.
  Variable V : Type.

  Definition rank_store : Type := Z -> Z -> V.

  Definition pack (lat : lattice) (rank d : Z) (p : parity) (mem : Z -> V) : list V :=
    map mem (get_sitelist (to_node lat rank d) p).

  (** Storing a received message at consecutive addresses. *)
  Fixpoint store_list (mem : Z -> V) (at_ : Z) (msg : list V) : Z -> V :=
    match msg with
    | [] => mem
    | v :: r => store_list (zupd mem at_ v) (at_ + 1) r
    end.

  (** field_comm.h 530-550: a rank receives only if [from_node.rank] is another
      rank; the data received is what that rank packed for the same direction. *)
  Definition gather (lat : lattice) (d : Z) (p : parity) (st : rank_store) : rank_store :=
    fun rank =>
      let f := from_node lat rank d in
      if cn_rank f =? rank then st rank
      else store_list (st rank) (cn_offset f p) (pack lat (cn_rank f) d p (st (cn_rank f))).

  (** A site-loop read [f[X+d]] at local site index [i]. *)
  Definition read_neighbour (lat : lattice) (rank d i : Z) (st : rank_store) : V :=
    st rank (neighb lat rank d i).
End Exchange.
Arguments pack {V}.
Arguments store_list {V}.
Arguments gather {V}.
Arguments read_neighbour {V}.

(** ** Block-wise remapping: map_node_layout.cpp 54-141 *)

(** Lines 68-80, search for a common divisor in 2..5. *)
Definition block_div (nblocks bd : Z) : option Z :=
  find (fun dv => (nblocks mod dv =? 0) && (bd mod dv =? 0)) [2; 3; 4; 5].

(** Lines 68-80: one sweep over the directions.  Returns block sizes, block
    divisions, remaining block count and whether something was divided. *)
Fixpoint block_sweep (bs bd : list Z) (nblocks : Z) : list Z * list Z * Z * bool :=
  match bs, bd with
  | b :: bs', q :: bd' =>
      match block_div nblocks q with
      | Some dv =>
          let '(rb, rd, n, _) := block_sweep bs' bd' (nblocks / dv) in
          (b * dv :: rb, q / dv :: rd, n, true)
      | None =>
          let '(rb, rd, n, f) := block_sweep bs' bd' nblocks in
          (b :: rb, q :: rd, n, f)
      end
  | _, _ => ([], [], nblocks, false)
  end.

(** Lines 64-81: the while loop; [None] if the fuel runs out. *)
Fixpoint block_loop (fuel : nat) (bs bd : list Z) (nblocks : Z) : option (list Z * list Z) :=
  if 1 <? nblocks then
    match fuel with
    | O => None
    | S k =>
        let '(rb, rd, n, f) := block_sweep bs bd nblocks in
        if f then block_loop k rb rd n else Some (rb, rd)
    end
  else Some (bs, bd).

(** Lines 58-66 with the block size parameter NODE_LAYOUT_BLOCK. *)
Definition block_shape (nlb : Z) (nd : list Z) : option (list Z * list Z) :=
  block_loop (Z.to_nat nlb) (map (fun _ => 1) nd) nd nlb.

(** Lines 100-121 for one logical index [i]: [ii] (index within the block) and
    [bi] (index of the block), with the running factors [im], [bm]. *)
Fixpoint block_indices (nd bs bd : list Z) (i im bm : Z) : Z * Z :=
  match nd, bs, bd with
  | n :: nd', b :: bs', q :: bd' =>
      let lc := i mod n in
      let '(ii, bi) := block_indices nd' bs' bd' (i / n) (im * b) (bm * q) in
      ((lc mod b) * im + ii, (lc / b) * bm + bi)
  | _, _, _ => (0, 0)
  end.

(** Lines 92-93 and 126. *)
Definition map_array_entry (nd bs bd : list Z) (i : Z) : Z :=
  let '(ii, bi) := block_indices nd bs bd i 1 1 in bi * zprod bs + ii.

(** Lines 97-128: filling both tables. *)
Fixpoint fill_maps (nd bs bd : list Z) (is : list Z) (t : (Z -> Z) * (Z -> Z))
  : (Z -> Z) * (Z -> Z) :=
  match is with
  | [] => t
  | i :: is' =>
      let m := map_array_entry nd bs bd i in
      fill_maps nd bs bd is' (zupd (fst t) i m, zupd (snd t) m i)
  end.

(** map_node_layout.cpp 54-129: [create_remap]; [None] if the block search did
    not end within the fuel (it always does, see the proofs).  Table entries
    that are never written read as -1. *)
Definition create_remap (nlb : Z) (nd : list Z) : option ((Z -> Z) * (Z -> Z)) :=
  match block_shape nlb nd with
  | None => None
  | Some (bs, bd) =>
      Some (fill_maps nd bs bd (zrange 0 (Z.to_nat (zprod nd))) (fun _ => -1, fun _ => -1))
  end.
