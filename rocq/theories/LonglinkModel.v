(** Model of the blocking of a gauge field, gaugefield.h 278-424
    (/repo/libraries/plumbing): the links of the blocked lattice are the "long
    links" of its parent.

    Fields, ranks and the buffer of one rank are those of [BlockModel]; the
    read of a neighbour follows a gather of the direction (C04-C07). *)
From Verif Require Import Common LayoutModel BlockModel.

Section Longlink.
  Variables (V : Type) (mul : V -> V -> V).

  (** 304-338 and 379-418: one direction on one rank.  [st] is the field of the
      direction on the parent lattice, on all ranks; [mem] the memory of the
      field on the blocked lattice. *)
  Definition block_direction (lat blk : lattice) (bf : list Z) (rank : Z) (d : nat)
      (st : Z -> Z -> V) (mem : Z -> V) : option (Z -> V) :=
    let bni := nodeinfo blk rank in
    let pni := nodeinfo lat rank in
    let dir := Z.of_nat d in
    let value :=
      if nth d bf 0 =? 1 then st rank
      else
        let st' := gather lat dir ALL st in
        fun i => mul (st' rank i) (read_neighbour lat rank dir i st') in
    match fill_buf (volume bni) (sel_parent bni bf) (coordinates pni) value
                   (loop_indices pni ALL) (fun _ => None) with
    | None => None
    | Some b => read_buf (volume bni) (sel_block bni) (coordinates bni) b
                         (loop_indices bni ALL) mem
    end.

  (** The loop over the directions; a field is given for each direction. *)
  Fixpoint block_directions (lat blk : lattice) (bf : list Z) (rank : Z) (ds : list nat)
      (parent : nat -> Z -> Z -> V) (mem : nat -> Z -> V) : option (nat -> Z -> V) :=
    match ds with
    | [] => Some mem
    | d :: ds' =>
        match block_direction lat blk bf rank d (parent d) (mem d) with
        | None => None
        | Some m => block_directions lat blk bf rank ds' parent
                      (fun d' => if (d' =? d)%nat then m else mem d')
        end
    end.

  (** 278-344 block_gauge, after the check that [lat] is the parent of [blk];
      [None] is the assertion on the blocking factors. *)
  Definition block_gauge (lat blk : lattice) (rank : Z)
      (parent : nat -> Z -> Z -> V) (mem : nat -> Z -> V) : option (nat -> Z -> V) :=
    let bf := element_div (l_size lat) (l_size blk) in
    if forallb (fun b => b <=? 2) bf
    then block_directions lat blk bf rank (seq 0 (length (l_size lat))) parent mem
    else None.

  (** 352-424 block_gauge_to_current_lattice: each direction of the field is
      first collected from the parent lattice, then cleared and allocated on
      the current lattice [blk] (contents [fresh]).  [same] is
      thislat == currentlat; otherwise [lat] is the parent of [blk].  The field
      of a direction is on [lat] until the loop has come to it, and no
      direction reads another one. *)
  Definition block_gauge_to_current_lattice (same : bool) (lat blk : lattice) (rank : Z)
      (this : nat -> Z -> Z -> V) (fresh : nat -> Z -> V) : option (nat -> Z -> V) :=
    if same then Some (fun d => this d rank)
    else
      let bf := element_div (l_size lat) (l_size blk) in
      if forallb (fun b => b <=? 2) bf
      then
        fold_left (fun acc d =>
            match acc with
            | None => None
            | Some this' =>
                match block_direction lat blk bf rank d (this d) (fresh d) with
                | None => None
                | Some m => Some (fun d' => if (d' =? d)%nat then m else this' d')
                end
            end)
          (seq 0 (length (l_size lat))) (Some (fun d => this d rank))
      else None.
End Longlink.
Arguments block_direction {V}.
Arguments block_directions {V}.
Arguments block_gauge {V}.
Arguments block_gauge_to_current_lattice {V}.
