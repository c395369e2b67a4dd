(** Model of the message tags of halo exchanges and of the messages posted by the
    ranks of a program, on any number of lattices.

    References: libraries/plumbing/com_mpi.cpp (mc), com_mpi.h (mh), field_comm.h
    (fc), field.h (fh).  The status functions are those of GatherModel.  A wait marks
    the gather as done; that it returns at all is the subject of C05. *)
From Verif Require Import Common LayoutModel GatherModel.

(** Operations of the program, executed by every rank in this order.  Lattices and
    fields are named by numbers. *)
Inductive tag_op : Type :=
| TStart (L : nat) (f d : Z) (p : parity)      (* start_gather of field f on lattice L *)
| TWait (L : nat) (f d : Z) (p : parity)       (* wait_gather *)
| TChanged (L : nat) (f d : Z) (p : parity)    (* mark_changed, iteration of direction d *)
| TPoint (L : nat) (src dst len : Z).          (* send_to on rank src, receive_from on rank dst *)

(** A message of the program: the number of the operation it belongs to and what it
    carries. *)
Inductive posted : Type :=
| Halo (call : nat) (L : nat) (f d : Z) (q : parity) (sites : Z)
| Point (call : nat) (L : nat) (src len : Z).

(** MPI calls: send or receive, communicator, other rank, tag, what it carries (send)
    or what its buffer is for (receive). *)
Record event : Type := mkEvent { e_send : bool; e_comm : Z; e_peer : Z; e_tag : Z; e_msg : posted }.

Record tag_state : Type := mkTS { ts_tag : Z; ts_stat : nat -> Z -> Z -> parity -> gstat }.

(** mc 317: the counter starts at 100; all halos not gathered. *)
Definition tag_init : tag_state := mkTS 100 (fun _ _ _ _ => NOT_DONE).

Definition put_lstat (s : tag_state) (L : nat) (f d : Z) (v : parity -> gstat) : tag_state :=
  mkTS (ts_tag s) (fun L' f' d' => if (L' =? L)%nat && (f' =? f) && (d' =? d) then v else ts_stat s L' f' d').

(** fc 631-695: the status after wait_gather; [None] is exit(1). *)
Definition wait_stat (nc : bool) (st : parity -> gstat) (p : parity) : option (parity -> gstat) :=
  if is_gathered st p then Some st
  else if nc then Some st
  else match resolve_started_parity st p with
       | None => None
       | Some qs => Some (fold_left (fun s q => set_stat s q DONE) qs st)
       end.

(** fh 2247-2275: the status after drop_comms. *)
Definition drop_one (nc : bool) (p : parity) (st : option (parity -> gstat)) : option (parity -> gstat) :=
  match st with
  | None => None
  | Some st => if is_gather_started st p then wait_stat nc st p else Some st
  end.
Definition drop_stat (nc : bool) (st : parity -> gstat) (p : parity) : option (parity -> gstat) :=
  let s1 := drop_one nc ALL (Some st) in
  match p with
  | ALL => drop_one nc ODD (drop_one nc EVEN s1)
  | _ => drop_one nc p s1
  end.

Section Ranks.
  Variable lats : nat -> lattice.       (* the lattices *)
  Variable comm : nat -> Z.             (* their communicators *)

  (** fc 530-550: MPI_Irecv if the neighbour is another rank. *)
  Definition receive_event (r : Z) (k L : nat) (f d : Z) (q : parity) (tag : Z) : list event :=
    let fn := from_node (lats L) r d in
    if cn_rank fn =? r then [] else [mkEvent false (comm L) (cn_rank fn) tag (Halo k L f d q (n_sites fn q))].

  (** fc 552-590: MPI_Isend if the receiver is another rank. *)
  Definition send_event (r : Z) (k L : nat) (f d : Z) (q : parity) (tag : Z) : list event :=
    let tn := to_node (lats L) r d in
    if cn_rank tn =? r then [] else [mkEvent true (comm L) (cn_rank tn) tag (Halo k L f d q (n_sites tn q))].

  (** Operation number [k] on rank [r]: new state and MPI calls. *)
  Definition tag_step (r : Z) (k : nat) (o : tag_op) (s : tag_state) : option (tag_state * list event) :=
    match o with
    | TStart L f d p =>                                          (* fc 487-591 *)
        let tag := next_tag (ts_tag s) in
        let s1 := mkTS tag (ts_stat s) in
        let st := ts_stat s L f d in
        match check_communication (noncomm (lats L) r d) st p with
        | CDone | CStarted => Some (s1, [])
        | CLocal => Some (put_lstat s1 L f d (set_stat st p DONE), [])
        | CDo q => Some (put_lstat s1 L f d (set_stat st q STARTED),
                         receive_event r k L f d q tag ++ send_event r k L f d q tag)
        end
    | TWait L f d p =>
        match wait_stat (noncomm (lats L) r d) (ts_stat s L f d) p with
        | None => None
        | Some st => Some (put_lstat s L f d st, [])
        end
    | TChanged L f d p =>                                        (* fh 583-602 *)
        match drop_stat (noncomm (lats L) r d) (ts_stat s L f d) (opp_parity p) with
        | None => None
        | Some st => Some (put_lstat s L f d (changed_stat st p), [])
        end
    | TPoint L src dst len =>                                    (* mh 292-343: the tag is the rank of the sender *)
        Some (s, (if r =? src then [mkEvent true (comm L) dst src (Point k L src len)] else []) ++
                 (if r =? dst then [mkEvent false (comm L) src src (Point k L src len)] else []))
    end.

  (** The MPI calls of a rank; [None] if it exits. *)
  Fixpoint tag_run (r : Z) (k : nat) (prog : list tag_op) (s : tag_state) : option (list event) :=
    match prog with
    | [] => Some []
    | o :: prog' =>
        match tag_step r k o s with
        | None => None
        | Some (s', ev) =>
            match tag_run r (S k) prog' s' with
            | None => None
            | Some ev' => Some (ev ++ ev')
            end
        end
    end.
End Ranks.
