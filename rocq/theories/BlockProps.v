(** C09, C10 and C51: lattice blocking. *)
From Verif Require Import Common LayoutModel LayoutSpec LayoutProps.
From Verif Require Import BlockModel BlockSpec BlockProofs1 BlockProofs2 BlockProofs3.

(** *** C09 *)

(** 5 x 4 sites on 2 x 3 ranks, blocked by 5 x 2 to 1 x 2 sites: four of the six
    ranks hold no blocked site. *)
Definition ex_bf : list Z := [5; 2].
Example ex_blocking : blocking (l_size ex_lat) ex_bf.
Proof.
  repeat constructor; try lia; [exists 1|exists 2]; reflexivity.
Qed.
Example ex_blocked_volumes :
  map (fun r => volume (nodeinfo (blocked ex_lat ex_bf) r)) [0; 1; 2; 3; 4; 5] <> [0; 0; 0; 0; 0; 0] /\
  In 0 (map (fun r => volume (nodeinfo (blocked ex_lat ex_bf) r)) [0; 1; 2; 3; 4; 5]).
Proof. vm_compute. split; [discriminate|tauto]. Qed.

Theorem C09_blocked_lattice_is_valid : forall lat bf, valid_lattice lat -> blocking (l_size lat) bf ->
  valid_lattice (blocked lat bf) /\
  times bf (l_size (blocked lat bf)) = l_size lat /\
  (forall r, is_rank (blocked lat bf) r <-> is_rank lat r).
Proof.
  intros lat bf Hv Hb. split; [apply blocked_valid; auto|].
  split; [apply element_div_times; auto|apply blocked_rank].
Qed.
Print Assumptions C09_blocked_lattice_is_valid.

Theorem C09_blocked_site_on_same_rank : forall lat bf x, valid_lattice lat ->
  blocking (l_size lat) bf -> is_site (l_size (blocked lat bf)) x ->
  is_site (l_size lat) (times bf x) /\
  node_rank (blocked lat bf) x = node_rank lat (times bf x).
Proof. intros. split; [apply times_site; auto|apply same_rank; auto]. Qed.
Print Assumptions C09_blocked_site_on_same_rank.

Theorem C09_rank_holds_blocked_site_iff_parent_site : forall lat bf r x, valid_lattice lat ->
  blocking (l_size lat) bf -> is_rank lat r -> length x = length (l_size lat) ->
  (holds (blocked lat bf) r x <-> holds lat r (times bf x)).
Proof. exact blocked_holds. Qed.
Print Assumptions C09_rank_holds_blocked_site_iff_parent_site.

Theorem C09_block_from_copies_subsampled_field : forall (V : Type) lat bf, valid_lattice lat ->
  blocking (l_size lat) bf ->
  forall (st old : Z -> Z -> V) F, represents lat st F ->
  exists st',
    (forall r, is_rank lat r -> block_from lat (blocked lat bf) r (old r) (st r) = Some (st' r)) /\
    represents (blocked lat bf) st' (fun x => F (times bf x)).
Proof. exact @block_from_global. Qed.
Print Assumptions C09_block_from_copies_subsampled_field.

Theorem C09_unblock_to_writes_exactly_blocked_sites : forall (V : Type) lat bf, valid_lattice lat ->
  blocking (l_size lat) bf ->
  forall (st sb : Z -> Z -> V) F G, represents lat st F -> represents (blocked lat bf) sb G ->
  exists st',
    (forall r, is_rank lat r -> unblock_to lat (blocked lat bf) r (sb r) (st r) = Some (st' r)) /\
    forall r c, is_rank lat r -> holds lat r c ->
      (forall x, is_site (l_size (blocked lat bf)) x -> c = times bf x ->
         st' r (site_index (nodeinfo lat r) c) = G x) /\
      ((forall x, is_site (l_size (blocked lat bf)) x -> c <> times bf x) ->
         st' r (site_index (nodeinfo lat r) c) = F c).
Proof. exact @unblock_to_global. Qed.
Print Assumptions C09_unblock_to_writes_exactly_blocked_sites.

Theorem C09_block_then_unblock_is_identity : forall (V : Type) lat bf, valid_lattice lat ->
  blocking (l_size lat) bf ->
  forall (st old : Z -> Z -> V) F, represents lat st F ->
  exists sb st',
    (forall r, is_rank lat r -> block_from lat (blocked lat bf) r (old r) (st r) = Some (sb r)) /\
    (forall r, is_rank lat r -> unblock_to lat (blocked lat bf) r (sb r) (st r) = Some (st' r)) /\
    represents lat st' F.
Proof. exact @block_round_trip. Qed.
Print Assumptions C09_block_then_unblock_is_identity.

(** *** C10 *)

(** The program's list of lattices with parent pointers behaves like chains of
    sizes as long as different lattices made have different sizes: the current
    lattice and every earlier handle unblock along the expected chain, all
    lattices share the base lattice's division among ranks, and the program stops
    only at an operation the chain model does not allow. *)
Theorem C10_blocking_follows_the_chain : forall lat ops s,
  nest_run (nest_init (l_size lat)) ops s ->
  exists t, lat_run (lat_init lat) ops = Some t /\
    length (defined t) = length (known s) /\
    chain_of (length (defined t)) (defined t) (current t) = Some (cur s) /\
    (forall i c, nth_error (known s) i = Some c ->
       chain_of (length (defined t)) (defined t) i = Some c) /\
    (forall i e, nth_error (defined t) i = Some e ->
       e_lat e = setup_blocked_lattice (l_size (e_lat e)) lat) /\
    (forall op t', (match op with Block bf => length bf = length (hd [] (cur s)) | _ => True end) ->
       lat_step t op = Some t' -> exists s', nest_step s op s').
Proof. exact nest_refined. Qed.
Print Assumptions C10_blocking_follows_the_chain.

Theorem C10_unblock_undoes_block : forall lat ops s fs s',
  nest_run (nest_init (l_size lat)) ops s ->
  nest_run s (map Block fs) s' ->
  exists t t', lat_run (lat_init lat) ops = Some t /\
    lat_run t (map Block fs ++ repeat Unblock (length fs)) = Some t' /\
    current t' = current t /\
    nth_error (defined t') (current t') = nth_error (defined t) (current t).
Proof. exact blocks_unblocks. Qed.
Print Assumptions C10_unblock_undoes_block.

(** A base lattice of 8 x 8 sites on 2 x 1 ranks, blocked twice after having been
    blocked and unblocked. *)
Definition lat88 : lattice := mkLattice [8; 8] [2; 1] (fun i => i) (fun i => i).
Ltac differ := intros a b Ha Hb H; simpl in Ha, Hb;
  repeat (destruct Ha as [<-|Ha]); repeat (destruct Hb as [<-|Hb]); simpl in H;
  try discriminate; try tauto; try reflexivity.
Example ex_nest : exists s s',
  nest_run (nest_init (l_size lat88)) [Block [2; 1]; Unblock] s /\
  nest_run s (map Block [[2; 1]; [1; 4]]) s' /\ cur s' = [[4; 2]; [4; 8]; [8; 8]].
Proof.
  exists (mkNest [[[8; 8]]; [[4; 8]; [8; 8]]] [[8; 8]]).
  exists (mkNest [[[8; 8]]; [[4; 8]; [8; 8]]; [[4; 2]; [4; 8]; [8; 8]]] [[4; 2]; [4; 8]; [8; 8]]).
  assert (B1 : blocking [8; 8] [2; 1]) by (repeat constructor; try lia; [exists 4|exists 8]; reflexivity).
  assert (B2 : blocking [4; 8] [1; 4]) by (repeat constructor; try lia; [exists 4|exists 2]; reflexivity).
  split; [|split; [|reflexivity]].
  - apply NR_cons with (s' := push (nest_init [8; 8]) [4; 8]).
    + apply N_block; auto.
    + differ.
    + apply NR_cons with (s' := mkNest [[[8; 8]]; [[4; 8]; [8; 8]]] [[8; 8]]).
      * apply N_unblock with (x := [4; 8]); [reflexivity|discriminate].
      * differ.
      * constructor.
  - cbn [map]. apply NR_cons with (s' := push (mkNest [[[8; 8]]; [[4; 8]; [8; 8]]] [[8; 8]]) [4; 8]).
    + apply N_block; auto.
    + differ.
    + apply NR_cons with (s' := push (mkNest [[[8; 8]]; [[4; 8]; [8; 8]]] [[4; 8]; [8; 8]]) [4; 2]).
      * apply N_block; auto.
      * differ.
      * constructor.
Qed.

(** Without the restriction: [block] and the following [unblock] end in a
    different lattice, of different size. *)
Theorem C10_unblock_undoes_block_refuted : exists lat ops f t t' t'' e e'',
  valid_lattice lat /\
  lat_run (lat_init lat) ops = Some t /\ lat_step t (Block f) = Some t' /\
  lat_step t' Unblock = Some t'' /\
  nth_error (defined t) (current t) = Some e /\
  nth_error (defined t'') (current t'') = Some e'' /\
  l_size (e_lat e) = [8; 4] /\ l_size (e_lat e'') = [4; 8].
Proof.
  exists lat88, [Block [2; 1]; Block [1; 2]; Unblock; Unblock; Block [1; 2]], [2; 1].
  do 5 eexists. split.
  - apply C03_trivial_layout_is_valid; try reflexivity; repeat constructor.
  - repeat split; try reflexivity.
Qed.
Print Assumptions C10_unblock_undoes_block_refuted.

(** Blocking by a factor of one, which leaves the lattice as it is, followed by
    [unblock] stops the program. *)
Theorem C10_block_by_one_then_unblock_refuted : exists lat f t,
  valid_lattice lat /\ blocking (l_size lat) f /\
  lat_run (lat_init lat) [Block f] = Some t /\ lat_step t Unblock = None.
Proof.
  exists lat88, [1; 1], (lat_init lat88). split.
  - apply C03_trivial_layout_is_valid; try reflexivity; repeat constructor.
  - split; [repeat constructor; try lia; exists 8; reflexivity|]. split; reflexivity.
Qed.
Print Assumptions C10_block_by_one_then_unblock_refuted.

(** *** C51 *)

(** On a rank that holds blocked sites a neighbour read of the target after
    [unblock_to] sees the new contents. *)
Theorem C51_read_after_unblock_on_ranks_with_blocked_sites : forall (V : Type) lat bf,
  valid_lattice lat -> blocking (l_size lat) bf ->
  forall (st' : Z -> Z -> V) F' r d c c' g,
    represents lat st' F' -> is_rank lat r -> is_direction (l_size lat) d -> holds lat r c ->
    periodic_neighbour (l_size lat) c d c' ->
    (exists x, holds (blocked lat bf) r x) ->
    read_after lat r d (site_index (nodeinfo lat r) c) (unblock_marks (blocked lat bf) r g) st' = F' c'.
Proof. exact @read_after_ok. Qed.
Print Assumptions C51_read_after_unblock_on_ranks_with_blocked_sites.

(** On a rank without blocked sites it can return the old value: 4 sites on 4
    ranks, blocked by 2; rank 1 reads site 2, which [unblock_to] has changed
    from 0 to 1. *)
Definition lat4 : lattice := mkLattice [4] [4] (fun i => i) (fun i => i).
Definition target_before : Z -> Z -> Z := gather lat4 0 ALL (fun _ _ => 0).
Definition target_after : Z -> Z -> Z := fun r =>
  match unblock_to lat4 (blocked lat4 [2]) r (fun _ => 1) (target_before r) with
  | Some m => m
  | None => target_before r
  end.
Theorem C51_read_after_unblock_refuted :
  valid_lattice lat4 /\ blocking (l_size lat4) [2] /\
  represents lat4 target_before (fun _ => 0) /\
  (forall r, is_rank lat4 r ->
     unblock_to lat4 (blocked lat4 [2]) r (fun _ => 1) (target_before r) = Some (target_after r)) /\
  node_rank lat4 [1] = 1 /\ periodic_neighbour [4] [1] 0 [2] /\
  target_after (node_rank lat4 [2]) (site_index (nodeinfo lat4 (node_rank lat4 [2])) [2]) = 1 /\
  read_after lat4 1 0 (site_index (nodeinfo lat4 1) [1])
             (unblock_marks (blocked lat4 [2]) 1 true) target_after = 0.
Proof.
  assert (Hv : valid_lattice lat4)
    by (apply C03_trivial_layout_is_valid; try reflexivity; repeat constructor).
  assert (Hb : blocking (l_size lat4) [2]) by (repeat constructor; try lia; exists 2; reflexivity).
  split; auto. split; auto. split.
  { apply C04_gather_only_fills_its_halo; auto; [vm_compute; split; congruence|].
    intros r c _ _. reflexivity. }
  split.
  { intros r Hr. unfold target_after.
    destruct (unblock_to_ok lat4 [2] r Hv Hb Hr (fun _ => 1) (target_before r)) as (m & -> & _). auto. }
  split; [reflexivity|]. split.
  { split; auto. split; auto. intros [|j] Hj; [reflexivity|simpl in Hj; lia]. }
  split; vm_compute; reflexivity.
Qed.
Print Assumptions C51_read_after_unblock_refuted.
