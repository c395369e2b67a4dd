(** Model of access to single elements and to lists of elements of a field
    from all ranks.  Line numbers refer to /repo/libraries/plumbing.

    A multi-rank field is a function rank -> local index -> value.  All ranks
    call these functions with the same coordinates.  MPI messages are modelled
    by the list of values sent; a receive must have the length of the message. *)
From Verif Require Import Common LayoutModel.

Section Elements.
  Variable V : Type.

  (** ** Single elements: field.h 1446-1620 *)

  (** field.h 1446-1456 [set_element] and 1529-1583 [compound_*_element]: the
      rank that has the site updates it. ([mark_changed(coord.parity())] is the
      subject of the gather model.) *)
  Definition set_element (lat : lattice) (c : list Z) (v : V) (st : rank_store V) : rank_store V :=
    fun r => let ni := nodeinfo lat r in
      if is_on_node ni c then zupd (st r) (site_index ni c) v else st r.

  Definition compound_element (lat : lattice) (c : list Z) (f : V -> V) (st : rank_store V)
    : rank_store V :=
    fun r => let ni := nodeinfo lat r in
      if is_on_node ni c then
        let i := site_index ni c in zupd (st r) i (f (st r i))
      else st r.

  (** com_mpi.h 175-200 [broadcast]: every rank ends with the value of [root];
      [None] is an uninitialised variable. *)
  Definition broadcast (root : Z) (vals : Z -> option V) : Z -> option V := fun _ => vals root.

  (** field.h 1464-1477 [get_element]. *)
  Definition get_element (lat : lattice) (c : list Z) (st : rank_store V) : Z -> option V :=
    let owner := node_rank lat c in
    broadcast owner (fun r => if r =? owner then Some (st r (site_index (nodeinfo lat r) c)) else None).

  (** The element operations of a program; [EPost]/[EPre] are the postfix and
      prefix increments and decrements (field.h 1587-1620) with [f] the step. *)
  Inductive elem_op : Type :=
    ESet (c : list Z) (v : V) | ECompound (c : list Z) (f : V -> V) | EGet (c : list Z)
    | EPost (c : list Z) (f : V -> V) | EPre (c : list Z) (f : V -> V).

  (** One operation: new contents, and the value returned on each rank (no value
      for compound assignments).  In [EPost]/[EPre] each rank sets the element
      computed from the value it got itself. *)
  Definition set_own (lat : lattice) (c : list Z) (vals : Z -> option V) (st : rank_store V)
    : rank_store V :=
    fun r => match vals r with Some v => set_element lat c v st r | None => st r end.

  Definition elem_step (lat : lattice) (op : elem_op) (st : rank_store V)
    : rank_store V * option (Z -> option V) :=
    match op with
    | ESet c v => (set_element lat c v st, Some (fun _ => Some v))
    | ECompound c f => (compound_element lat c f st, None)
    | EGet c => (st, Some (get_element lat c st))
    | EPost c f =>
        let v := get_element lat c st in
        (set_own lat c (fun r => option_map f (v r)) st, Some v)
    | EPre c f =>
        let v := fun r => option_map f (get_element lat c st r) in
        (set_own lat c v st, Some v)
    end.

  Fixpoint elem_run (lat : lattice) (ops : list elem_op) (st : rank_store V)
    : rank_store V * list (option (Z -> option V)) :=
    match ops with
    | [] => (st, [])
    | op :: ops' =>
        let '(st1, o) := elem_step lat op st in
        let '(st2, os) := elem_run lat ops' st1 in (st2, o :: os)
    end.

  (** ** Lists of elements: field_comm.h 823-1010 *)

  (** The scan over the coordinate list, common to [gather_elements] (836-849)
      and [scatter_elements] (914-927), on rank [me]. *)
  Record scan : Type := mkScan {
    index_list : list Z;
    sites_on_rank : Z -> Z;
    nranks : Z;
    reshuffle_list : list Z
  }.

  Definition scan_step (lat : lattice) (me root : Z) (s : scan) (c : list Z) : scan :=
    let rank := node_rank lat c in
    mkScan (if me =? rank then index_list s ++ [site_index (nodeinfo lat me) c] else index_list s)
           (zupd (sites_on_rank s) rank (sites_on_rank s rank + 1))
           (if (sites_on_rank s rank =? 0) && negb (rank =? root) then nranks s + 1 else nranks s)
           (reshuffle_list s ++ [rank]).

  Definition run_scan (lat : lattice) (me root : Z) (coords : list (list Z)) : scan :=
    fold_left (scan_step lat me root) coords (mkScan [] (fun _ => 0) 0 []).

  (** 851-857: what rank [r] sends to [root]; [None] if nothing. *)
  Definition gather_message (lat : lattice) (root : Z) (coords : list (list Z)) (st : rank_store V)
    (r : Z) : option (list V) :=
    let s := run_scan lat r root coords in
    if negb (r =? root) && (0 <? sites_on_rank s r) then Some (map (st r) (index_list s)) else None.

  (** 868-887: the root's receives, storing the messages one after the other in
      the array [pb].  [nptr n] points into [pb] (offset) for n <> root.
      Failures: a request number not below [nranks], a message that would
      overflow [pb], a missing message or a message of different length. *)
  Record recv_state : Type := mkRecv { pb : list V; nptr : Z -> option Z; nreqs : Z }.

  Definition recv_step (pbsize nr root : Z) (cnt : Z -> Z) (msg : Z -> option (list V))
    (s : option recv_state) (n : Z) : option recv_state :=
    match s with
    | None => None
    | Some s =>
        if 0 <? cnt n then
          if n =? root then Some (mkRecv (pb s) (zupd (nptr s) n (Some 0)) (nreqs s))
          else
            match msg n with
            | None => None
            | Some m =>
                let b := Z.of_nat (length (pb s)) in
                if (Z.of_nat (length m) =? cnt n) && (nreqs s <? nr) && (b + cnt n <=? pbsize)
                then Some (mkRecv (pb s ++ m) (zupd (nptr s) n (Some b)) (nreqs s + 1))
                else None
            end
        else Some s
    end.

  (** 893-898: copying to [buffer] in the order of the coordinate list;
      [nptr[rank]] points into the root's own [send_buffer] for rank = root.
      [None] is a read through an unset pointer or past the end. *)
  Fixpoint reorder (root : Z) (own pbuf : list V) (ptr : Z -> option Z) (rs : list Z)
    : option (list V) :=
    match rs with
    | [] => Some []
    | r :: rs' =>
        match ptr r with
        | None => None
        | Some p =>
            match nth_error (if r =? root then own else pbuf) (Z.to_nat p) with
            | None => None
            | Some v =>
                match reorder root own pbuf (zupd ptr r (Some (p + 1))) rs' with
                | None => None
                | Some l => Some (v :: l)
                end
            end
        end
    end.

  (** 823-899 [gather_elements]: the contents of [buffer] on the root. *)
  Definition gather_elements (lat : lattice) (root : Z) (coords : list (list Z)) (st : rank_store V)
    : option (list V) :=
    let s := run_scan lat root root coords in
    let own := map (st root) (index_list s) in
    let pbsize := Z.of_nat (length coords) - sites_on_rank s root in
    match fold_left (recv_step pbsize (nranks s) root (sites_on_rank s)
                               (gather_message lat root coords st))
                    (zrange 0 (Z.to_nat (number_of_nodes lat)))
                    (Some (mkRecv [] (fun _ => None) 0)) with
    | None => None
    | Some rv => reorder root own (pb rv) (nptr rv) (reshuffle_list s)
    end.

  (** 941-948: [nloc], the start of each rank's part of [pb] (prefix sums). *)
  Fixpoint nloc_table (cnt : Z -> Z) (ns : list Z) (start : Z) (t : Z -> Z) : Z -> Z :=
    match ns with
    | [] => t
    | n :: ns' => nloc_table cnt ns' (start + cnt n) (zupd t n start)
    end.

  (** 949-953: filling [pb]; a position outside of [pb] is a failure, as is a
      value list shorter than the coordinate list. *)
  Fixpoint fill_pb (size : Z) (nloc : Z -> Z) (ncount : Z -> Z) (rs : list Z) (vs : list V)
    (p : Z -> option V) : option (Z -> option V) :=
    match rs, vs with
    | [], _ => Some p
    | r :: rs', v :: vs' =>
        let k := nloc r + ncount r in
        if (0 <=? k) && (k <? size) then
          fill_pb size nloc (zupd ncount r (ncount r + 1)) rs' vs' (zupd p k (Some v))
        else None
    | _ :: _, [] => None
    end.

  (** Reading [n] consecutive elements of [pb] (all must have been written). *)
  Fixpoint read_block (p : Z -> option V) (start : Z) (n : nat) : option (list V) :=
    match n with
    | O => Some []
    | S k =>
        match p start, read_block p (start + 1) k with
        | Some v, Some l => Some (v :: l)
        | _, _ => None
        end
    end.

  (** backend_cpu/field_storage_backend.h [place_elements]. *)
  Fixpoint place_elements (idx : list Z) (vs : list V) (mem : Z -> V) : option (Z -> V) :=
    match idx, vs with
    | [], _ => Some mem
    | i :: idx', v :: vs' => place_elements idx' vs' (zupd mem i v)
    | _ :: _, [] => None
    end.

  (** 902-976 [scatter_elements] on rank [r]; the message from the root to [r] is
      the part of the root's [pb] belonging to [r]. *)
  Definition scatter_elements (lat : lattice) (root : Z) (coords : list (list Z)) (vs : list V)
    (st : rank_store V) (r : Z) : option (Z -> V) :=
    let s := run_scan lat r root coords in
    let sr := run_scan lat root root coords in
    let ns := zrange 0 (Z.to_nat (number_of_nodes lat)) in
    let nloc := nloc_table (sites_on_rank sr) ns 0 (fun _ => 0) in
    match fill_pb (Z.of_nat (length coords)) nloc (fun _ => 0) (reshuffle_list sr) vs (fun _ => None) with
    | None => None
    | Some p =>
        if 0 <? sites_on_rank s r then
          match read_block p (nloc r) (Z.to_nat (sites_on_rank sr r)) with
          | None => None
          | Some m => place_elements (index_list s) m (st r)
          end
        else Some (st r)
    end.

  (** 979-996 [set_elements]: every rank has the whole list of values. *)
  Fixpoint my_part (lat : lattice) (r : Z) (coords : list (list Z)) (vs : list V)
    : option (list Z * list V) :=
    match coords, vs with
    | [], [] => Some ([], [])
    | c :: coords', v :: vs' =>
        match my_part lat r coords' vs' with
        | None => None
        | Some (is, ms) =>
            if is_on_node (nodeinfo lat r) c
            then Some (site_index (nodeinfo lat r) c :: is, v :: ms) else Some (is, ms)
        end
    | _, _ => None (* assertion: sizes differ *)
    end.

  Definition set_elements (lat : lattice) (coords : list (list Z)) (vs : list V) (st : rank_store V)
    (r : Z) : option (Z -> V) :=
    match my_part lat r coords vs with
    | None => None
    | Some (is, ms) => place_elements is ms (st r)
    end.

  (** 1001-1014 [get_elements]: the result vector on each rank (empty on ranks
      other than 0 unless broadcast). *)
  Definition get_elements (lat : lattice) (coords : list (list Z)) (bcast : bool) (st : rank_store V)
    (r : Z) : option (list V) :=
    match gather_elements lat 0 coords st with
    | None => None
    | Some l => if bcast || (r =? 0) then Some l else Some []
    end.
End Elements.
Arguments set_element {V}.
Arguments compound_element {V}.
Arguments get_element {V}.
Arguments ESet {V}.
Arguments ECompound {V}.
Arguments EGet {V}.
Arguments EPost {V}.
Arguments EPre {V}.
Arguments elem_step {V}.
Arguments elem_run {V}.
Arguments gather_message {V}.
Arguments recv_step {V}.
Arguments mkRecv {V}.
Arguments pb {V}.
Arguments nptr {V}.
Arguments nreqs {V}.
Arguments reorder {V}.
Arguments gather_elements {V}.
Arguments fill_pb {V}.
Arguments read_block {V}.
Arguments place_elements {V}.
Arguments scatter_elements {V}.
Arguments set_elements {V}.
Arguments get_elements {V}.
Arguments my_part {V}.
Arguments set_own {V}.
Arguments broadcast {V}.
