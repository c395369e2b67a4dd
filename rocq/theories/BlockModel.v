(** Model of lattice blocking: creation of a blocked lattice, copying fields
    between a lattice and its blocked lattice, and the list of defined lattices
    with the current one.  Line numbers refer to /repo/libraries/plumbing.

    Coordinates are non-negative here, so C++ [/] and [%] on [int] are written
    [Z.quot] and [Z.rem] and agree with floor division on them. *)
From Verif Require Import Common LayoutModel.

(** Matrix [element_div] (datatypes/vector or matrix, component-wise [/]). *)
Fixpoint element_div (a b : list Z) : list Z :=
  match a, b with
  | x :: a', y :: b' => Z.quot x y :: element_div a' b'
  | _, _ => []
  end.

(** coordinates.h 540-546: [is_divisible]. *)
Fixpoint is_divisible (a b : list Z) : bool :=
  match a, b with
  | x :: a', y :: b' => (Z.rem x y =? 0) && is_divisible a' b'
  | _, _ => true
  end.

(** lattice.cpp 1100-1149 [setup_blocked_lattice]: new sizes, everything that
    assigns sites to ranks copied from the parent.  Neighbour tables and boxes
    are functions of these ([nodeinfo], [create_std_gathers]). *)
Definition setup_blocked_lattice (siz : list Z) (orig : lattice) : lattice :=
  mkLattice siz (n_divisions orig) (remap orig) (inverse_remap orig).

(** lattice.cpp 1042-1058 [can_block_by_factor]: [None] is the call to
    [hila::terminate] for a factor that is not positive. *)
Definition can_block_by_factor (ls bf : list Z) : option bool :=
  if forallb (fun f => 0 <? f) bf then Some (is_divisible ls bf) else None.

(** ** Copying fields: field_comm.h 1284-1402 *)
Section Copy.
  Variable V : Type.

  (** The temporary array [buf] of [volume] elements; [d_malloc] leaves the
      elements uninitialised ([None] inside).  The outer [None] is an access out
      of range or a read of an uninitialised element. *)
  Definition tmp_buf : Type := Z -> option V.

  Definition buf_write (vol : Z) (b : tmp_buf) (k : Z) (v : V) : option tmp_buf :=
    if (0 <=? k) && (k <? vol) then Some (zupd b k (Some v)) else None.

  Definition buf_read (vol : Z) (b : tmp_buf) (k : Z) : option V :=
    if (0 <=? k) && (k <? vol) then b k else None.

  (** field_comm.h 1317-1324 and 1380-1385: one pass of a site loop that writes
      to [buf]: [sel] gives the buffer index, if the site takes part. *)
  Fixpoint fill_buf (vol : Z) (sel : list Z -> option Z) (crd : Z -> list Z) (mem : Z -> V)
    (idx : list Z) (b : tmp_buf) : option tmp_buf :=
    match idx with
    | [] => Some b
    | i :: idx' =>
        match sel (crd i) with
        | None => fill_buf vol sel crd mem idx' b
        | Some k =>
            match buf_write vol b k (mem i) with
            | None => None
            | Some b' => fill_buf vol sel crd mem idx' b'
            end
        end
    end.

  (** field_comm.h 1329-1334 and 1390-1396: one site loop that reads from [buf]. *)
  Fixpoint read_buf (vol : Z) (sel : list Z -> option Z) (crd : Z -> list Z) (b : tmp_buf)
    (idx : list Z) (mem : Z -> V) : option (Z -> V) :=
    match idx with
    | [] => Some mem
    | i :: idx' =>
        match sel (crd i) with
        | None => read_buf vol sel crd b idx' mem
        | Some k =>
            match buf_read vol b k with
            | None => None
            | Some v => read_buf vol sel crd b idx' (zupd mem i v)
            end
        end
    end.

  (** The index [cv.dot(size_factor)] of a site of the blocked lattice. *)
  Definition sel_block (bni : node_info) (c : list Z) : option Z :=
    Some (get_logical_index bni c).

  (** The index for a site of the parent lattice, if it is a blocked site. *)
  Definition sel_parent (bni : node_info) (bf c : list Z) : option Z :=
    if is_divisible c bf then Some (get_logical_index bni (element_div c bf)) else None.

  (** field_comm.h 1284-1341 [block_from] on one rank, after the check that the
      field's lattice [blk] has [lat] as parent; [mem] is the field being
      written, [orig] the parent field. *)
  Definition block_from (lat blk : lattice) (rank : Z) (mem orig : Z -> V) : option (Z -> V) :=
    let bni := nodeinfo blk rank in
    let pni := nodeinfo lat rank in
    if volume bni =? 0 then Some mem
    else
      let bf := element_div (l_size lat) (l_size blk) in
      match fill_buf (volume bni) (sel_parent bni bf) (coordinates pni) orig
                     (loop_indices pni ALL) (fun _ => None) with
      | None => None
      | Some b => read_buf (volume bni) (sel_block bni) (coordinates bni) b
                           (loop_indices bni ALL) mem
      end.

  (** field_comm.h 1347-1402 [unblock_to] on one rank: [mem] is the blocked
      field, [target] the parent field being written. *)
  Definition unblock_to (lat blk : lattice) (rank : Z) (mem target : Z -> V) : option (Z -> V) :=
    let bni := nodeinfo blk rank in
    let pni := nodeinfo lat rank in
    if volume bni =? 0 then Some target
    else
      let bf := element_div (l_size lat) (l_size blk) in
      match fill_buf (volume bni) (sel_block bni) (coordinates bni) mem
                     (loop_indices bni ALL) (fun _ => None) with
      | None => None
      | Some b => read_buf (volume bni) (sel_parent bni bf) (coordinates pni) b
                           (loop_indices pni ALL) target
      end.

  (** The halo bookkeeping of the target around [unblock_to].  The early return
      at field_comm.h 1369-1370 comes before the site loop that writes the target, so a
      rank without blocked sites does not execute the [mark_changed] that the
      loop carries: its flag "halo of direction d is gathered" stays as it was. *)
  Definition unblock_marks (blk : lattice) (rank : Z) (gathered : bool) : bool :=
    if volume (nodeinfo blk rank) =? 0 then gathered else false.

  (** A later read [target[X+d]] on [rank]: if the flag says gathered the halo is
      used as it is, otherwise the direction is gathered first.  [st] is the
      multi-rank contents of the target (with halos) after [unblock_to]. *)
  Definition read_after (lat : lattice) (rank d i : Z) (gathered : bool) (st : rank_store V) : V :=
    if gathered then read_neighbour lat rank d i st
    else read_neighbour lat rank d i (gather lat d ALL st).
End Copy.
Arguments buf_write {V}.
Arguments buf_read {V}.
Arguments fill_buf {V}.
Arguments read_buf {V}.
Arguments block_from {V}.
Arguments unblock_to {V}.
Arguments read_after {V}.

(** ** The list of lattices: lattice.cpp 1063-1094, lattice.h 505-660 *)

(** One [lattice_struct]: its layout and its [parent] pointer (as the position of
    the parent in [hila::defined_lattices]). *)
Record lat_entry : Type := mkEntry { e_lat : lattice; e_parent : option nat }.

(** [hila::defined_lattices] and the global handle [lattice]. *)
Record lat_state : Type := mkLatState { defined : list lat_entry; current : nat }.

(** The user's operations. [Block] is [block(CoordinateVector)], [BlockBy] is
    [block(int)], [Switch] is [switch_to] of a lattice obtained before. *)
Inductive lat_op : Type :=
  Block (bf : list Z) | BlockBy (k : Z) | Unblock | SwitchBase | Switch (i : nat).

Fixpoint zlist_eqb (a b : list Z) : bool :=
  match a, b with
  | [], [] => true
  | x :: a', y :: b' => (x =? y) && zlist_eqb a' b'
  | _, _ => false
  end.

(** lattice.cpp 1078-1083: position of the first defined lattice of that size. *)
Fixpoint find_size (siz : list Z) (l : list lat_entry) (i : nat) : option nat :=
  match l with
  | [] => None
  | e :: l' => if zlist_eqb (l_size (e_lat e)) siz then Some i else find_size siz l' (S i)
  end.

(** lattice.cpp 1063-1094 [block_by_factor]; [None] is [hila::terminate]. *)
Definition block_by_factor (s : lat_state) (bf : list Z) : option lat_state :=
  match nth_error (defined s) (current s) with
  | None => None
  | Some cur =>
      match can_block_by_factor (l_size (e_lat cur)) bf with
      | Some true =>
          let blockvol := element_div (l_size (e_lat cur)) bf in
          match find_size blockvol (defined s) 0 with
          | Some i => Some (mkLatState (defined s) i)
          | None =>
              Some (mkLatState
                      (defined s ++ [mkEntry (setup_blocked_lattice blockvol (e_lat cur))
                                             (Some (current s))])
                      (length (defined s)))
          end
      | _ => None
      end
  end.

(** lattice.h 611-614 [block(cv)], 619-628 [block(int)], 634-642 [unblock],
    660-662 [switch_to_base], and [switch_to]. *)
Definition lat_step (s : lat_state) (op : lat_op) : option lat_state :=
  match op with
  | Block bf => block_by_factor s bf
  | BlockBy k =>
      if (k =? 0) || (k =? 1) then Some s
      else
        match nth_error (defined s) (current s) with
        | None => None
        | Some cur => block_by_factor s (map (fun _ => k) (l_size (e_lat cur)))
        end
  | Unblock =>
      match nth_error (defined s) (current s) with
      | Some (mkEntry _ (Some p)) => Some (mkLatState (defined s) p)
      | _ => None
      end
  | SwitchBase => Some (mkLatState (defined s) 0)
  | Switch i => if (i <? length (defined s))%nat then Some (mkLatState (defined s) i) else None
  end.

Fixpoint lat_run (s : lat_state) (ops : list lat_op) : option lat_state :=
  match ops with
  | [] => Some s
  | op :: ops' => match lat_step s op with None => None | Some s' => lat_run s' ops' end
  end.

(** After [lattice.setup]: one lattice, without parent (lattice.cpp 43). *)
Definition lat_init (lat : lattice) : lat_state := mkLatState [mkEntry lat None] 0.
