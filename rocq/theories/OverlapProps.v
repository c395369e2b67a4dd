(** Property theorem C07 (overlapping communication with computation). *)
From Coq Require Import Permutation.
From Verif Require Import Common LayoutModel LayoutSpec LayoutProps GatherModel GatherSpec
  GatherProofs7 GatherProofs8 GatherProofs9 OverlapModel OverlapProofs1 GatherProps.

(** Every index of the loop range is processed exactly once, whatever the
    gathers in flight ([mask]) and the per-site neighbour masks ([wa]). *)
Theorem C07_every_site_processed_exactly_once : forall wa mask idx,
  Permutation (visited (overlap_loop wa mask idx)) idx.
Proof. exact overlap_once. Qed.
Print Assumptions C07_every_site_processed_exactly_once.

(** A site with a neighbour outside the rank in direction [d], when the gather
    from [d] was in flight, comes after the wait. *)
Theorem C07_sites_needing_halo_come_after_wait : forall lat r mask idx pre i post d,
  (length (l_size lat) <= 4)%nat -> is_direction (l_size lat) d -> Z.testbit mask d = true ->
  volume (nodeinfo lat r) <= neighb lat r d i ->
  overlap_loop (wait_arr lat r) mask idx = pre ++ Visit i :: post -> In WaitGathers pre.
Proof. exact overlap_late. Qed.
Print Assumptions C07_sites_needing_halo_come_after_wait.

(** The loop waits at most once, and at least once if a gather was started. *)
Theorem C07_waits_once_if_started : forall wa mask idx,
  (forall pre post, overlap_loop wa mask idx = pre ++ WaitGathers :: post -> ~ In WaitGathers pre /\ ~ In WaitGathers post) /\
  (In WaitGathers (overlap_loop wa mask idx) <-> mask <> 0).
Proof. exact overlap_waits. Qed.
Print Assumptions C07_waits_once_if_started.

(** The sites processed before the wait have all their neighbour values: in any
    execution, when rank [r] has called start_gather for all fields and
    directions [reads] of the loop (after program [h]; [h'] is the rest), with
    [mask] the union of the values returned, a site whose mask is not hit finds
    the current neighbour value of each field and direction in memory, no matter
    which messages have arrived. *)
Theorem C07_sites_before_wait_read_current_values :
  forall (V : Type) lat, valid_lattice lat -> even_where_split lat -> (length (l_size lat) <= 4)%nat ->
  forall mem sb F (h : list (api_op V)) reads p h' g0 ls0 g ls r,
  initial_fields lat mem F ->
  Forall (op_directions lat) (h ++ map (fun fd => OStart (fst fd) (snd fd) p) reads ++ h') ->
  let prog := compile lat (h ++ map (fun fd => OStart (fst fd) (snd fd) p) reads ++ h') in
  execution lat prog (init_system V mem sb) ls0 g0 -> execution lat prog g0 ls g -> is_rank lat r ->
  rs_pc V (sys_rank V g0 r) = length (compile lat h) ->
  rs_pc V (sys_rank V g r) = (length (compile lat h) + length reads)%nat ->
  let mask := snd (start_gathers V lat r p reads (sys_rank V g0 r) 0) in
  forall i f d, In i (loop_indices (nodeinfo lat r) p) -> In (f, d) reads ->
    Z.land (wait_arr lat r i) mask = 0 ->
    exists c', periodic_neighbour (l_size lat) (coordinates (nodeinfo lat r) i) d c' /\
      rs_mem V (sys_rank V g r) f (neighb lat r d i) = final_fields h F f c'.
Proof. exact early_reads. Qed.
Print Assumptions C07_sites_before_wait_read_current_values.

(** A concrete case: rank 0 of the 4 x 3 lattice on 2 x 1 ranks has started
    directions 0 and 1 of field 0; some sites are early, some late. *)
Definition ov_prog : list (api_op Z) := [] ++ map (fun fd => OStart (fst fd) (snd fd) ALL) [(0, 0); (0, 1)] ++ [OWait 0 0 ALL].
Definition ov_run := run_some Z ex_even (compile ex_even ov_prog) [Exec 0] 2 (init_system Z (ex_mem ex_even) ex_sb).
Definition ov_mask := snd (start_gathers Z ex_even 0 ALL [(0, 0); (0, 1)] (sys_rank Z (init_system Z (ex_mem ex_even) ex_sb) 0) 0).
Example C07_example :
  Forall (op_directions ex_even) ov_prog /\
  execution ex_even (compile ex_even ov_prog) (init_system Z (ex_mem ex_even) ex_sb) (fst ov_run) (snd ov_run) /\
  rs_pc Z (sys_rank Z (snd ov_run) 0) = 2%nat /\
  ov_mask = 1 /\
  filter (fun i => Z.land (wait_arr ex_even 0 i) ov_mask =? 0) (loop_indices (nodeinfo ex_even 0) ALL) = [0; 2; 4] /\
  volume (nodeinfo ex_even 0) = 6.
Proof.
  split; [repeat constructor; cbn; unfold is_direction; cbn; lia|].
  split; [apply run_some_execution|]. vm_compute. repeat split; reflexivity.
Qed.
