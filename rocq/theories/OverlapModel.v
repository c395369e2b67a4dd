(** Model of the generated site loop that overlaps communication with
    computation (CPU code generator). *)
From Verif Require Import Common LayoutModel GatherModel.

(** coordinates.h 125-129: [dir_mask_t] is an unsigned char, [get_dir_mask]. *)
Definition get_dir_mask (d : Z) : Z := Z.shiftl 1 d mod 256.

(** lattice.cpp 757-779: [initialize_wait_arrays]: a bit for every direction
    whose neighbour is outside the local volume. *)
Definition wait_arr (lat : lattice) (r i : Z) : Z :=
  fold_left (fun w d => if volume (nodeinfo lat r) <=? neighb lat r d i then Z.lor w (Z.shiftl 1 d mod 256) else w)
            (zrange 0 (Z.to_nat (ndirs lat))) 0.

(** The value returned by [start_gather] (field_comm.h 505-511, 590). *)
Definition start_result (c : check_result) (d : Z) : Z :=
  match c with CDone | CLocal => 0 | CStarted | CDo _ => get_dir_mask d end.

(** codegen_cpu.cpp 33-68: the start_gather calls before the loop, one for each
    field and direction read, accumulating [_dir_mask_]. *)
Fixpoint start_gathers (V : Type) (lat : lattice) (r : Z) (p : parity) (reads : list (Z * Z))
    (s : rank_state V) (mask : Z) : rank_state V * Z :=
  match reads with
  | [] => (s, mask)
  | (f, d) :: rest =>
      let c := check_communication (noncomm lat r d) (rs_stat V s f d) p in
      start_gathers V lat r p rest (start_gather V lat r f d p s) (Z.lor mask (start_result c d))
  end.

(** What the generated loop does, in order. *)
Inductive loop_event : Type := Visit (i : Z) | WaitGathers.

(** codegen_cpu.cpp 96-101, 168-176, 336-345: the loop body is executed in pass
    [wi] iff [((wait_arr_[i] & _dir_mask_) != 0) == wi]; after the first pass
    break if the mask is zero, else wait for all gathers. *)
Definition loop_pass (wa : Z -> Z) (mask : Z) (wi : bool) (idx : list Z) : list loop_event :=
  map Visit (filter (fun i => Bool.eqb (negb (Z.land (wa i) mask =? 0)) wi) idx).

Definition overlap_loop (wa : Z -> Z) (mask : Z) (idx : list Z) : list loop_event :=
  loop_pass wa mask false idx ++
  (if mask =? 0 then [] else WaitGathers :: loop_pass wa mask true idx).

Definition visited (es : list loop_event) : list Z :=
  flat_map (fun e => match e with Visit i => [i] | WaitGathers => [] end) es.
