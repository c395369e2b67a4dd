(** Specification of message matching. *)
From Verif Require Import Common LayoutModel LayoutSpec GatherModel TagModel.

(** The messages sent (received) with one envelope, in the order of the calls.  MPI
    delivers the n-th message of an envelope (communicator, sender, receiver, tag) to
    the n-th receive posted for that envelope. *)
Definition with_envelope (send : bool) (comm peer tag : Z) (ev : list event) : list posted :=
  map e_msg (filter (fun e => Bool.eqb (e_send e) send && (e_comm e =? comm) && (e_peer e =? peer) && (e_tag e =? tag)) ev).
Definition sends_to := with_envelope true.
Definition receives_from := with_envelope false.

(** Directions of the program exist; point-to-point messages go to another rank. *)
Definition op_ok (lats : nat -> lattice) (o : tag_op) : Prop :=
  match o with
  | TStart L _ d _ | TWait L _ d _ | TChanged L _ d _ => is_direction (l_size (lats L)) d
  | TPoint _ src dst _ => src <> dst
  end.

(** Number of halo exchange calls in a program. *)
Definition is_start (o : tag_op) : bool := match o with TStart _ _ _ _ => true | _ => false end.
Definition count_starts (prog : list tag_op) : Z := Z.of_nat (length (filter is_start prog)).
