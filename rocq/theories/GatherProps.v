(** Property theorems C05 and C06 (asynchronous, lazily reused halo gathers). *)
From Verif Require Import Common LayoutModel LayoutSpec LayoutProofs8 LayoutProps GatherModel GatherSpec
  GatherProofs7 GatherProofs8 GatherProofs9.

(** *** C05
    [execution lat (compile lat h) (init_system V mem sb) ls g]: the ranks all run
    the user program [h]; [ls] is any interleaving of rank steps, message
    transmissions and message deliveries; [g] is the state reached. *)

Theorem C05_neighbour_reads_are_never_stale :
  forall (V : Type) lat, valid_lattice lat -> even_where_split lat ->
  forall mem sb F, initial_fields lat mem F ->
  forall h : list (api_op V), Forall (op_directions lat) h ->
  forall ls g r, execution lat (compile lat h) (init_system V mem sb) ls g -> is_rank lat r ->
  let log := rev (rs_log V (sys_rank V g r)) in
  Forall2 (read_values lat r) (firstn (length log) (spec_reads h F)) log /\
  (rs_pc V (sys_rank V g r) = length (compile lat h) -> length log = length (spec_reads h F)).
Proof. exact user_reads. Qed.
Print Assumptions C05_neighbour_reads_are_never_stale.

Theorem C05_final_contents :
  forall (V : Type) lat, valid_lattice lat -> even_where_split lat ->
  forall mem sb F, initial_fields lat mem F ->
  forall h : list (api_op V), Forall (op_directions lat) h ->
  forall ls g r f c, execution lat (compile lat h) (init_system V mem sb) ls g -> is_rank lat r ->
  rs_pc V (sys_rank V g r) = length (compile lat h) -> holds lat r c ->
  rs_mem V (sys_rank V g r) f (site_index (nodeinfo lat r) c) = final_fields h F f c.
Proof. exact user_contents. Qed.
Print Assumptions C05_final_contents.

Theorem C05_no_undefined_behaviour :
  forall (V : Type) lat, valid_lattice lat -> even_where_split lat ->
  forall mem sb F, initial_fields lat mem F ->
  forall h : list (api_op V), Forall (op_directions lat) h ->
  forall ls g r o, execution lat (compile lat h) (init_system V mem sb) ls g -> is_rank lat r ->
  nth_error (compile lat h) (rs_pc V (sys_rank V g r)) = Some o ->
  exec_mop V lat r o (sys_rank V g r) <> Undefined.
Proof. exact user_defined. Qed.
Print Assumptions C05_no_undefined_behaviour.

Theorem C05_matched_waits_never_exit :
  forall (V : Type) lat, valid_lattice lat -> even_where_split lat ->
  forall mem sb F, initial_fields lat mem F ->
  forall h : list (api_op V), Forall (op_directions lat) h -> waits_matched h [] ->
  forall ls g r o, execution lat (compile lat h) (init_system V mem sb) ls g -> is_rank lat r ->
  nth_error (compile lat h) (rs_pc V (sys_rank V g r)) = Some o ->
  exec_mop V lat r o (sys_rank V g r) <> Exited.
Proof. exact user_no_exit. Qed.
Print Assumptions C05_matched_waits_never_exit.

Theorem C05_no_deadlock :
  forall (V : Type) lat, valid_lattice lat -> even_where_split lat ->
  forall mem sb F, initial_fields lat mem F ->
  forall h : list (api_op V), Forall (op_directions lat) h -> waits_matched h [] ->
  forall ls g, execution lat (compile lat h) (init_system V mem sb) ls g ->
  finished lat (compile lat h) g \/
  exists l g', execution lat (compile lat h) (init_system V mem sb) (ls ++ [l]) g'.
Proof. exact user_progress. Qed.
Print Assumptions C05_no_deadlock.

Theorem C05_every_schedule_is_finite :
  forall (V : Type) lat, valid_lattice lat -> even_where_split lat ->
  forall mem sb F, initial_fields lat mem F ->
  forall h : list (api_op V), Forall (op_directions lat) h ->
  forall ls g, execution lat (compile lat h) (init_system V mem sb) ls g ->
  (length ls <= 3 * (Z.to_nat (number_of_nodes lat) * length (compile lat h)))%nat.
Proof. exact user_bounded. Qed.
Print Assumptions C05_every_schedule_is_finite.

(** When the fields used have been destroyed and all ranks are done, the number
    of messages rank [s] sent to [r] under a tag is the number [r] received from
    [s], each of them is marked received, and no request is left. *)
Theorem C05_every_message_received_exactly_once :
  forall (V : Type) lat, valid_lattice lat -> even_where_split lat ->
  forall mem sb F (h : list (api_op V)) fs, initial_fields lat mem F ->
  Forall (op_directions lat) h -> frees_all h fs ->
  let prog := compile lat (h ++ map (@OFree V) fs) in
  forall ls g, execution lat prog (init_system V mem sb) ls g -> finished lat prog g ->
  forall s r t, is_rank lat s -> is_rank lat r -> s <> r ->
    (rs_nsend V (sys_rank V g s) r t = rs_nrecv V (sys_rank V g r) s t /\
     forall n, sys_net V g s r t n = (if (n <? rs_nsend V (sys_rank V g s) r t)%nat then Received V else Absent V)) /\
    forall k, rs_rreq V (sys_rank V g r) k = NoReq /\ rs_sreq V (sys_rank V g r) k = NoReq.
Proof. exact user_messages. Qed.
Print Assumptions C05_every_message_received_exactly_once.

(** A concrete case: a 4 x 3 lattice on 2 x 1 ranks; a program with an
    asynchronous start, reads on both parities, writes that invalidate one
    parity, a gather dropped while it is in flight, and the destruction of the
    fields.  A complete run of it exists. *)
Definition ex_maps2 := match create_remap 4 [2; 1] with Some m => m | None => (fun _ => 0, fun _ => 0) end.
Definition ex_even : lattice := mkLattice [4; 3] [2; 1] (fst ex_maps2) (snd ex_maps2).
Definition ex_F : Z -> list Z -> Z := fun f c => 100 * f + 10 * nth 0 c 0 + nth 1 c 0.
Definition ex_mem (lat : lattice) : Z -> Z -> Z -> Z := fun r f i =>
  if (0 <=? i) && (i <? volume (nodeinfo lat r)) then ex_F f (coordinates (nodeinfo lat r) i) else -1.
Definition ex_prog : list (api_op Z) :=
  [OStart 0 0 ALL; OWrite 1 ODD (fun c => 7); OWait 0 0 EVEN; ORead 0 [0; 1] EVEN; OWrite 0 EVEN (fun c => 500 + nth 0 c 0);
   ORead 0 [0; 3] ODD; OStart 1 3 ODD; OStart 1 3 ALL; OWrite 1 ALL (fun c => 9); OGather 1 2 ALL; ORead 1 [3; 2] ALL].
Definition ex_sb : Z -> Z -> Z -> Z -> Z := fun _ _ _ _ => -2.
Definition ex_labels (nr nf nd : nat) : list label :=
  flat_map (fun r => Exec r ::
    flat_map (fun f => flat_map (fun d => flat_map (fun q => [Transmit r (f, d, q); Deliver r (f, d, q)]) [EVEN; ODD; ALL])
       (zrange 0 nd)) (zrange 0 nf)) (zrange 0 nr).
Definition ex_full : list (mop Z) := compile ex_even (ex_prog ++ map (@OFree Z) [0; 1]).
Definition ex_run := run_some Z ex_even ex_full (ex_labels 2 2 4) 1000 (init_system Z (ex_mem ex_even) ex_sb).

Example C05_example_lattice : valid_lattice ex_even /\ even_where_split ex_even.
Proof.
  split.
  - apply (C03_blocked_layout_is_valid 4); try reflexivity; repeat constructor.
  - intros [|[|j]] Hj; cbn in *; auto; lia.
Qed.
Example C05_example_fields : initial_fields ex_even (ex_mem ex_even) ex_F.
Proof.
  intros r f c Hr Hc. unfold ex_mem.
  destruct (C01_site_index_bijection ex_even r (proj1 C05_example_lattice) Hr) as [B _]. specialize (B c Hc).
  destruct (C01_coordinates_invert_site_index ex_even r (proj1 C05_example_lattice) Hr) as [C _]. rewrite (C c Hc).
  replace (0 <=? _) with true by (symmetry; apply Z.leb_le; lia).
  replace (_ <? _) with true by (symmetry; apply Z.ltb_lt; lia). auto.
Qed.
Example C05_example_program : Forall (op_directions ex_even) ex_prog /\ waits_matched ex_prog [] /\ frees_all ex_prog [0; 1].
Proof.
  split; [|split].
  - unfold ex_prog. repeat constructor; cbn; unfold is_direction; cbn; lia.
  - cbn. tauto.
  - intros o Ho. cbn in Ho. repeat (destruct Ho as [<-|Ho]; [cbn; tauto|]). destruct Ho.
Qed.
(** Its run is complete, exchanged messages, and the second rank's reads are the expected ones. *)
Example C05_example_run :
  execution ex_even ex_full (init_system Z (ex_mem ex_even) ex_sb) (fst ex_run) (snd ex_run) /\
  finished ex_even ex_full (snd ex_run) /\
  rs_nsend Z (sys_rank Z (snd ex_run) 0) 1 101 = 1%nat /\
  length (rs_log Z (sys_rank Z (snd ex_run) 1)) = 6%nat.
Proof.
  split; [apply run_some_execution|]. split; [|split].
  - assert (E : forallb (fun r => Nat.eqb (rs_pc Z (sys_rank Z (snd ex_run) r)) (length ex_full)) [0; 1] = true) by (vm_compute; reflexivity).
    intros r Hr. rewrite forallb_forall in E. apply Nat.eqb_eq, E. unfold is_rank in Hr. change (number_of_nodes ex_even) with 2 in Hr.
    cbn. lia.
  - vm_compute. reflexivity.
  - vm_compute. reflexivity.
Qed.

(** The condition on waits is needed: the EVEN part of a pending ALL gather
    may not be waited for after a loop on EVEN, although the data would still
    be right; wait_gather exits (field_comm.h 655-661). *)
Definition ex_unmatched : list (api_op Z) := [OStart 0 0 ALL; OStart 0 0 EVEN; OWrite 0 EVEN (fun _ => 1); OWait 0 0 EVEN].
Theorem C05_unmatched_wait_exits_refuted :
  exists ls g o, execution ex_even (compile ex_even ex_unmatched) (init_system Z (ex_mem ex_even) ex_sb) ls g /\
    nth_error (compile ex_even ex_unmatched) (rs_pc Z (sys_rank Z g 0)) = Some o /\
    exec_mop Z ex_even 0 o (sys_rank Z g 0) = Exited.
Proof.
  set (R := run_some Z ex_even (compile ex_even ex_unmatched) (ex_labels 2 1 4) 1000 (init_system Z (ex_mem ex_even) ex_sb)).
  exists (fst R), (snd R), (MWait 0 0 EVEN). split; [apply run_some_execution|]. unfold R. split; vm_compute; reflexivity.
Qed.
Print Assumptions C05_unmatched_wait_exits_refuted.

(** *** C06: with an odd size in a split direction reads can be stale *)
Definition ex_odd : lattice := mkLattice [5; 2] [2; 1] (fst ex_maps2) (snd ex_maps2).
Definition odd_history : list (api_op Z) := [ORead 0 [0] EVEN; OWrite 0 EVEN (fun _ => 1000); ORead 0 [0] EVEN].
Definition odd_run := run_some Z ex_odd (compile ex_odd odd_history) (ex_labels 2 1 4) 1000 (init_system Z (ex_mem ex_odd) ex_sb).

Example C06_lattice_valid : valid_lattice ex_odd.
Proof.
  apply (C03_blocked_layout_is_valid 4); try reflexivity; repeat constructor.
Qed.
Example C06_fields : initial_fields ex_odd (ex_mem ex_odd) ex_F.
Proof.
  intros r f c Hr Hc. unfold ex_mem.
  destruct (C01_site_index_bijection ex_odd r C06_lattice_valid Hr) as [B _]. specialize (B c Hc).
  destruct (C01_coordinates_invert_site_index ex_odd r C06_lattice_valid Hr) as [C _]. rewrite (C c Hc).
  replace (0 <=? _) with true by (symmetry; apply Z.leb_le; lia).
  replace (_ <? _) with true by (symmetry; apply Z.ltb_lt; lia). auto.
Qed.

(** The claim of C05 without the condition on sizes. *)
Definition reads_never_stale_on (lat : lattice) : Prop :=
  forall (mem : Z -> Z -> Z -> Z) sb F, initial_fields lat mem F ->
  forall h : list (api_op Z), Forall (op_directions lat) h ->
  forall ls g r, execution lat (compile lat h) (init_system Z mem sb) ls g -> is_rank lat r ->
  let log := rev (rs_log Z (sys_rank Z g r)) in
  Forall2 (read_values lat r) (firstn (length log) (spec_reads h F)) log.

(** The read after the write returns the value the neighbour had before it. *)
Theorem C06_stale_read_on_odd_lattice :
  exists ls g r m i v c', execution ex_odd (compile ex_odd odd_history) (init_system Z (ex_mem ex_odd) ex_sb) ls g /\
    finished ex_odd (compile ex_odd odd_history) g /\ is_rank ex_odd r /\
    nth_error (loop_indices (nodeinfo ex_odd r) EVEN) m = Some i /\
    nth_error (nth 1 (rev (rs_log Z (sys_rank Z g r))) []) m = Some v /\
    periodic_neighbour (l_size ex_odd) (coordinates (nodeinfo ex_odd r) i) 0 c' /\
    v = ex_F 0 c' /\ final_fields odd_history ex_F 0 c' = 1000 /\ v <> 1000.
Proof.
  exists (fst odd_run), (snd odd_run), 1, 0%nat, (site_index (nodeinfo ex_odd 1) [4; 0]), 0, [0; 0].
  split; [apply run_some_execution|]. split; [|split; [|split; [|split; [|split; [|split; [|split]]]]]].
  - assert (E : forallb (fun r => Nat.eqb (rs_pc Z (sys_rank Z (snd odd_run) r)) (length (compile ex_odd odd_history))) [0; 1] = true) by (vm_compute; reflexivity).
    intros r Hr. rewrite forallb_forall in E. apply Nat.eqb_eq, E. unfold is_rank in Hr. change (number_of_nodes ex_odd) with 2 in Hr.
    cbn. lia.
  - unfold is_rank. change (number_of_nodes ex_odd) with 2. lia.
  - vm_compute. reflexivity.
  - vm_compute. reflexivity.
  - replace (coordinates _ _) with [4; 0] by (vm_compute; reflexivity).
    split; [reflexivity|split; [reflexivity|]]. intros [|[|j]] Hj; cbn in *; auto; lia.
  - reflexivity.
  - reflexivity.
  - discriminate.
Qed.
Print Assumptions C06_stale_read_on_odd_lattice.

Theorem C06_reads_never_stale_refuted : exists lat, valid_lattice lat /\ ~ reads_never_stale_on lat.
Proof.
  exists ex_odd. split; [exact C06_lattice_valid|]. intros H.
  assert (D : Forall (op_directions ex_odd) odd_history) by (unfold odd_history; repeat constructor; cbn; unfold is_direction; cbn; lia).
  assert (R : is_rank ex_odd 1) by (unfold is_rank; change (number_of_nodes ex_odd) with 2; lia).
  specialize (H (ex_mem ex_odd) ex_sb ex_F C06_fields odd_history D (fst odd_run) (snd odd_run) 1 (run_some_execution _ _ _ _ _ _) R).
  assert (L : rev (rs_log Z (sys_rank Z (snd odd_run) 1)) = [[0; 41]; [0; 41]]) by (vm_compute; reflexivity).
  cbv zeta in H. rewrite L in H. cbn [length firstn spec_reads odd_history map app] in H.
  inversion H as [|? ? ? ? _ H2]; subst. inversion H2 as [|? ? ? ? H3 _]; subst. unfold read_values in H3.
  assert (Li : loop_indices (nodeinfo ex_odd 1) EVEN = [0; 1]) by (vm_compute; reflexivity). rewrite Li in H3.
  inversion H3 as [|? ? ? ? H4 _]; subst. destruct H4 as (c' & P & E).
  replace (coordinates (nodeinfo ex_odd 1) 0) with [4; 0] in P by (vm_compute; reflexivity).
  assert (c' = neighbour ex_odd [4; 0] 0) as ->.
  { apply neighbour_periodic; auto; [exact C06_lattice_valid|unfold is_direction; cbn; lia|].
    split; [reflexivity|]. intros [|[|j]] Hj; cbn in *; lia. }
  vm_compute in E. discriminate.
Qed.
Print Assumptions C06_reads_never_stale_refuted.
