(** What checkpointing should guarantee. *)
From Coq Require Import ZArith List Bool.
From Verif Require Import CheckpointModel.
Import ListNotations.

(** The configuration is on the disk, complete, in one of the two files. *)
Definition on_disk (d : disk) (c : list Z) : Prop :=
  config d = Some c \/ prev d = Some c.

(** A checkpoint of a configuration of the right size which keeps the old one. *)
Definition good_job (size : nat) (j : job) : Prop :=
  save_old j = true /\ length (conf j) = size.

Definition good_event (size : nat) (e : event) : Prop :=
  match e with
  | Check j => good_job size j
  | Crash j k => good_job size j
  | _ => True
  end.

(** How many file operations it takes until the last byte of the
    configuration is in its file: the renaming of an existing file, its
    creation, the bytes. *)
Definition written_after (d : disk) (j : job) : nat :=
  (match config d with Some _ => 1 | None => 0 end + 1 + length (conf j))%nat.

(** The configuration whose last byte was written last in a history. *)
Definition newest_step (size : nat) (st : state * option (list Z)) (e : event) :
    state * option (list Z) :=
  let '(s, c) := st in
  (step size s e,
   match e with
   | Check j => if snd s then Some (conf j) else c
   | Crash j k =>
     if snd s && Nat.leb (written_after (fst s) j) k then Some (conf j) else c
   | _ => c
   end).

Definition newest (size : nat) (l : list event) : option (list Z) :=
  snd (fold_left (newest_step size) l ((empty_disk, false), None)).

(** A restart goes on with a configuration and the trajectory number that was
    recorded with it, the old or the new. *)
Definition consistent_restart (r : outcome) (old : list Z) (t_old : Z) (j : job) : Prop :=
  forall c n t s, r = Resume c (Some (n, t, s)) ->
    (c = old /\ t = t_old) \/ (c = conf j /\ t = (trajectory j + 1)%Z).
