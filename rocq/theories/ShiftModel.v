(** Model of Field::shift.  Line numbers refer to /repo/libraries/plumbing.

    A field is a function rank -> local index -> value.  The neighbour read
    [f[X+d]] is preceded by the gather of that direction (gather model); here
    the synchronous gather of the layout model is used. *)
From Verif Require Import Common LayoutModel GatherModel.

Section Shift.
  Variable V : Type.
  Variable lat : lattice.
  Local Notation ndim := (Z.of_nat (length (l_size lat))).

  (** field.h 518-520 [shift_from]: [this[par] = f[X + d]]; the site loop over
      [par] on every rank, after the gather for the loop parity. *)
  Definition shift_from (src : rank_store V) (d : Z) (p : parity) (dst : rank_store V) : rank_store V :=
    let g := gather lat d p src in
    fun r => fold_left (fun m i => zupd m i (read_neighbour lat r d i g)) (loop_indices (nodeinfo lat r) p) (dst r).

  (** field.h 510-512 and field_comm.h 194-197: [res[par] = this[X]]. *)
  Definition copy_sites (src : rank_store V) (p : parity) (dst : rank_store V) : rank_store V :=
    fun r => fold_left (fun m i => zupd m i (src r i)) (loop_indices (nodeinfo lat r) p) (dst r).

  (** coordinates.h / matrix [norm_L1]: sum of absolute values. *)
  Definition norm_L1 (v : list Z) : Z := zsum (map Z.abs v).

  (** field_comm.h 207-218: the first direction of the move that is already
      gathered; [ready d] says so for direction number d (status for [par_s]). *)
  Fixpoint find_ready (ready : Z -> bool) (d : Z) (rem : list Z) : option Z :=
    match rem with
    | [] => None
    | x :: rem' =>
        if (0 <? x) && ready d then Some d
        else if (x <? 0) && ready (opp_dir ndim d) then Some (opp_dir ndim d)
        else find_ready ready (d + 1) rem'
    end.

  (** 220-231: otherwise the first direction with a move ([None]: mdir stays
      uninitialised). *)
  Fixpoint find_first (d : Z) (rem : list Z) : option Z :=
    match rem with
    | [] => None
    | x :: rem' =>
        if 0 <? x then Some d else if x <? 0 then Some (opp_dir ndim d) else find_first (d + 1) rem'
    end.

  (** 257-271: the state of the loops: the fields pointed to by [from] and [to],
      whether [from] points to [res] (else to [r1]), the parity and the remaining moves. *)
  Record shift_state : Type := mkShift { s_from : rank_store V; s_to : rank_store V; s_is_res : bool; s_par : parity; s_rem : list Z }.

  (** 261-269: [while (rem[d] != 0)]; [None] if it has not ended after [fuel] turns. *)
  Fixpoint while_moves (fuel : nat) (k : nat) (mdir : Z) (s : shift_state) : option shift_state :=
    if nth k (s_rem s) 0 =? 0 then Some s
    else
      match fuel with
      | O => None
      | S fuel' =>
          let t := shift_from (s_from s) mdir (s_par s) (s_to s) in
          (* swap(to, from) *)
          while_moves fuel' k mdir (mkShift t (s_from s) (negb (s_is_res s)) (opp_parity (s_par s)) (sub_dir (s_rem s) mdir))
      end.

  (** 257-271: [foralldir (d)]. *)
  Fixpoint all_moves (ks : list nat) (s : shift_state) : option shift_state :=
    match ks with
    | [] => Some s
    | k :: ks' =>
        let x := nth k (s_rem s) 0 in
        if x =? 0 then all_moves ks' s
        else
          let mdir := if 0 <? x then Z.of_nat k else opp_dir ndim (Z.of_nat k) in
          match while_moves (Z.to_nat (Z.abs x)) k mdir s with
          | None => None
          | Some s1 => all_moves ks' s1
          end
    end.

  (** 179-275 [shift]: [f] is the field itself, [res] the earlier contents of the
      result field and [r1] those of the newly allocated buffer (undefined: any
      value).  [ready p d] is [gather_status(p, d) != NOT_DONE].  [None] stands
      for an uninitialised direction or a loop that does not end. *)
  Definition shift (ready : parity -> Z -> bool) (f : rank_store V) (v : list Z) (par : parity)
    (res r1 : rank_store V) : option (rank_store V) :=
    let len := norm_L1 v in
    if len =? 0 then Some (copy_sites f par res)
    else
      let par_s := if len mod 2 =? 0 then opp_parity par else par in
      match (match find_ready (ready par_s) 0 v with Some d => Some d | None => find_first 0 v end) with
      | None => None
      | Some mdir =>
          if len =? 1 then Some (shift_from f mdir par_s res)
          else
            let from_is_res := negb (len mod 2 =? 0) in
            let from := if from_is_res then res else r1 in
            let to := if from_is_res then r1 else res in
            let from1 := shift_from f mdir par_s from in
            match all_moves (seq 0 (length v)) (mkShift from1 to from_is_res (opp_parity par_s) (sub_dir v mdir)) with
            | None => None
            | Some s => Some (if s_is_res s then s_from s else s_to s) (* return res *)
            end
      end.
End Shift.
Arguments shift_from {V}. Arguments copy_sites {V}. Arguments mkShift {V}. Arguments s_from {V}.
Arguments s_to {V}. Arguments s_is_res {V}. Arguments s_par {V}. Arguments s_rem {V}. Arguments while_moves {V}.
Arguments all_moves {V}. Arguments shift {V}.
