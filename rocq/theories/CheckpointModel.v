(** Model of the checkpointing of a run (libraries/tools/checkpoint.h).

    The files of a run are the configuration file, the same name with
    ".prev" appended, and "run_status".  A configuration is the sequence of
    bytes config_write puts into the file, header included; its length is
    fixed by the lattice, the group and NDIM.

    Simplifications: the bytes of one file reach the disk in the order in
    which they are written, and a file written later is not on the disk before
    one written and closed earlier: a crash is a crash of the program, not of
    the file system.  The status file is a sequence of four labelled numbers;
    a line of which only a part has been written is [Cut], with the number
    that can be read from the part, if any.  Only node 0 touches the files, so
    there is one sequence of operations. *)
From Coq Require Import ZArith List Bool.
Import ListNotations.
Open Scope Z_scope.

(** A line of run_status: complete, or cut short by a crash.  An incomplete
    line with no digit yet cannot be read; one with some of the digits is read
    as the number they form (input.cpp 123-361). *)
Inductive field := Full (v : Z) | Cut (v : option Z).

Definition read_number (f : field) : option Z :=
  match f with Full v => Some v | Cut v => v end.

Record disk := mkDisk {
  config : option (list Z);
  prev : option (list Z);
  status : option (list field)
}.

Definition empty_disk := mkDisk None None None.

Inductive op :=
  | Rename                (* filesys_ns::rename, checkpoint.h 24-27 *)
  | Create                (* open_output_file truncates, field_io.h 37-58 *)
  | Append (b : Z)        (* one byte of config_write, gaugefield.h 196-217 *)
  | Truncate              (* outf.open(..., trunc), checkpoint.h 51 *)
  | Write (f : field).    (* a line, or a part of it, checkpoint.h 52-56 *)

(** A further write first completes the line that was begun. *)
Definition settled (s : list field) : list field :=
  match rev s with
  | Cut _ :: r => rev r
  | _ => s
  end.

Definition apply (d : disk) (o : op) : disk :=
  match o with
  | Rename =>
    match config d with
    | Some f => mkDisk None (Some f) (status d)
    | None => d
    end
  | Create => mkDisk (Some []) (prev d) (status d)
  | Append b => mkDisk (option_map (fun f => f ++ [b]) (config d)) (prev d) (status d)
  | Truncate => mkDisk (config d) (prev d) (Some [])
  | Write f => mkDisk (config d) (prev d) (option_map (fun s => settled s ++ [f]) (status d))
  end.

Definition apply_all (d : disk) (l : list op) : disk := fold_left apply l d.

(** The arguments of one checkpoint, with the values the environment supplies:
    the random seed, the clock, and what can be read from incomplete lines. *)
Record job := mkJob {
  save_old : bool;
  conf : list Z;
  total : Z;
  trajectory : Z;
  seed : Z;
  time : Z;
  part1 : option Z; part2 : option Z; part3 : option Z; part4 : option Z
}.

Definition exists_file {A} (f : option A) : bool :=
  match f with Some _ => true | None => false end.

(** checkpoint.h 36-46: the number of trajectories in run_status replaces the
    caller's; a status file without that number ends the program (input.h
    136-141).  The inner option is the value, the outer one the end. *)
Definition trajectories (d : disk) (j : job) : option Z :=
  match status d with
  | None => Some (total j)
  | Some [] => None
  | Some (f :: _) => read_number f
  end.

(** checkpoint.h 18-65. *)
Definition config_ops (d : disk) (j : job) : list op :=
  (if save_old j && exists_file (config d) then [Rename] else [])
  ++ Create :: map Append (conf j).

Definition status_ops (n : Z) (j : job) : list op :=
  [ Truncate;
    Write (Cut (part1 j)); Write (Full n);
    Write (Cut (part2 j)); Write (Full (trajectory j + 1));
    Write (Cut (part3 j)); Write (Full (seed j));
    Write (Cut (part4 j)); Write (Full (time j)) ].

Definition checkpoint_ops (d : disk) (j : job) : list op :=
  config_ops d j ++
  match trajectories d j with
  | Some n => status_ops n j
  | None => []
  end.

(** What a restart does: end with an error message, start from the beginning,
    or go on with a configuration and, when there is a status file, with the
    number of trajectories, the trajectory number and the seed in it. *)
Inductive outcome :=
  | Stop
  | Fresh
  | Resume (c : list Z) (s : option (Z * Z * Z)).

(** config_read (gaugefield.h 219-273) reads [size] bytes; a shorter file sets
    the stream's fail bit, which close_file (field_io.h 60-78) turns into the
    end of the program, as does a missing file (field_io.h 19-35).  The header
    check is part of this: a header that is cut short ends the program. *)
Definition config_read (size : nat) (f : option (list Z)) : option (list Z) :=
  match f with
  | None => None
  | Some b => if Nat.ltb (length b) size then None else Some (firstn size b)
  end.

(** checkpoint.h 67-108. *)
Definition restore (size : nat) (d : disk) : outcome :=
  match status d with
  | Some (f1 :: f2 :: f3 :: _) =>
    match read_number f1, read_number f2, read_number f3 with
    | Some n, Some t, Some s =>
      match config_read size (config d) with
      | Some c => Resume c (Some (n, t, s))
      | None => Stop
      end
    | _, _, _ => Stop
    end
  | Some _ => Stop
  | None =>
    match config d with
    | None => Fresh
    | Some _ =>
      match config_read size (config d) with
      | Some c => Resume c None
      | None => Stop
      end
    end
  end.

(** The life of a run: the program is started, makes checkpoints, crashes
    during one after [k] file operations, or is killed between two. *)
Inductive event :=
  | Start
  | Check (j : job)
  | Crash (j : job) (k : nat)
  | Kill.

Definition state := (disk * bool)%type.

Definition step (size : nat) (st : state) (e : event) : state :=
  let '(d, running) := st in
  match e with
  | Start =>
    if running then st
    else (d, match restore size d with Stop => false | _ => true end)
  | Check j =>
    if running
    then (apply_all d (checkpoint_ops d j), exists_file (trajectories d j))
    else st
  | Crash j k =>
    if running then (apply_all d (firstn k (checkpoint_ops d j)), false) else st
  | Kill => (d, false)
  end.

Definition history (size : nat) (l : list event) : state :=
  fold_left (step size) l (empty_disk, false).
