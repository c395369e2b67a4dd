(** Property theorems C64 (division of the lattice among ranks and vector lanes). *)
From Verif Require Import Common LayoutModel LayoutSpec LayoutProofs2 SetupModel VlayoutModel VlayoutSpec VlayoutProps
  VsetupModel VsetupProofs2 VsetupProofs3.

(** The routine has accepted virtual nodes of size [sz], [dv] of them per
    direction, of which [sd] per direction are lanes of one rank, with lanes
    merged in direction [m] and uneven direction [g].  The installed layout
    (whatever blocking [nlb] of ranks is asked for) is one for which C61-C63
    hold, it has the requested numbers of ranks and lanes, and every rank's box
    has [sd * sz] sites per direction, only in direction [g] possibly one site
    less. *)
Theorem C64_accepted_layout_is_valid : forall fuel ls nodes nsub g sz dv sd m nlb,
  (2 <= length ls)%nat -> Forall (fun x => 0 < x) ls -> 0 < nodes -> 2 <= nsub ->
  vsetup_layout fuel ls nodes nsub = VLayout g sz dv sd m ->
  exists mp inv, create_remap nlb (cquot dv sd) = Some (mp, inv) /\
    let v := installed ls dv sd m mp inv in
    valid_vlattice v /\ number_of_nodes (vl_lat v) = nodes /\ number_of_subnodes v = nsub /\
    forall r j, is_rank (vl_lat v) r -> (j < length ls)%nat ->
      (g <> Some j -> nth j (n_siz (nodeinfo (vl_lat v) r)) 0 = nth j sd 0 * nth j sz 0) /\
      (g = Some j -> nth j sd 0 = 1 /\ nth j sz 0 - 1 <= nth j (n_siz (nodeinfo (vl_lat v) r)) 0 <= nth j sz 0).
Proof. exact vlayout_ok. Qed.
Print Assumptions C64_accepted_layout_is_valid.

(** The inner loop always ends (within as many passes as there are lanes), and
    no layout is accepted without a merged direction. *)
Theorem C64_lane_division_ends : forall fuel ls nodes nsub,
  ls <> [] -> Forall (fun x => 0 < x) ls -> 0 < nodes -> 2 <= nsub ->
  vsetup_layout fuel ls nodes nsub <> VSubLoopsOn /\ vsetup_layout fuel ls nodes nsub <> VNoMerged.
Proof. exact no_inner_loop. Qed.
Print Assumptions C64_lane_division_ends.

(** The outer loop ends after at most two turns or never. *)
Theorem C64_done_after_two_turns_or_never : forall ls nodes nsub,
  (forall fuel, (2 <= fuel)%nat -> vsetup_layout fuel ls nodes nsub = vsetup_layout 2 ls nodes nsub /\
                                   vsetup_layout fuel ls nodes nsub <> VLoopsOn) \/
  (forall fuel, vsetup_layout fuel ls nodes nsub = VLoopsOn).
Proof. exact vtwo_turns_or_never. Qed.
Print Assumptions C64_done_after_two_turns_or_never.

(** If ranks times lanes divides the volume, the routine ends in one turn, does
    not get stuck while slicing, and any layout it accepts is even. *)
Theorem C64_ends_if_virtual_nodes_divide_volume : forall ls nodes nsub fuel,
  Forall (fun x => 0 < x) ls -> 0 < nodes -> 0 < nsub ->
  zprod ls mod (nodes * nsub) = 0 -> (1 <= fuel)%nat ->
  vsetup_layout fuel ls nodes nsub <> VLoopsOn /\ vsetup_layout fuel ls nodes nsub <> VCannotHappen /\
  (forall g sz dv sd m, vsetup_layout fuel ls nodes nsub = VLayout g sz dv sd m -> g = None).
Proof. exact vdivisible. Qed.
Print Assumptions C64_ends_if_virtual_nodes_divide_volume.

(** In general the routine does not end: a 16 x 16 x 16 x 48 lattice on 5 ranks
    of 8 lanes. *)
Theorem C64_terminates_refuted : exists ls nodes nsub,
  (2 <= length ls)%nat /\ Forall (fun x => 0 < x /\ x mod 2 = 0) ls /\ 0 < nodes /\ nsub = 8 /\
  forall fuel, vsetup_layout fuel ls nodes nsub = VLoopsOn.
Proof.
  exists [16; 16; 16; 48], 5, 8. split; [cbn; lia|]. split; [repeat constructor|]. split; [lia|]. split; [auto|].
  destruct (vtwo_turns_or_never [16; 16; 16; 48] 5 8) as [H|H]; auto.
  exfalso. destruct (H 2%nat ltac:(lia)) as [_ X]. apply X. vm_compute. reflexivity.
Qed.
Print Assumptions C64_terminates_refuted.

(** The exit marked as impossible in the code is taken: 8 x 8 x 8 x 8 on 3
    ranks of 8 lanes. *)
Theorem C64_impossible_exit_refuted : exists ls nodes nsub,
  (2 <= length ls)%nat /\ Forall (fun x => 0 < x /\ x mod 2 = 0) ls /\ 0 < nodes /\ nsub = 8 /\
  forall fuel, (1 <= fuel)%nat -> vsetup_layout fuel ls nodes nsub = VCannotHappen.
Proof.
  exists [8; 8; 8; 8], 3, 8. split; [cbn; lia|]. split; [repeat constructor|]. split; [lia|]. split; [auto|].
  intros [|[|k]] Hf; [lia|vm_compute; reflexivity|].
  destruct (vtwo_turns_or_never [8; 8; 8; 8] 3 8) as [H|H].
  - destruct (H (S (S k)) ltac:(lia)) as [-> _]. vm_compute. reflexivity.
  - exfalso. specialize (H 1%nat). vm_compute in H. discriminate.
Qed.
Print Assumptions C64_impossible_exit_refuted.

(** The layout found is ready for the site index of C61: for every rank the
    index is a bijection from its sites onto its index range. *)
Theorem C64_accepted_layout_indexes_all_sites : forall fuel ls nodes nsub g sz dv sd m nlb,
  (2 <= length ls)%nat -> Forall (fun x => 0 < x) ls -> 0 < nodes -> 2 <= nsub ->
  vsetup_layout fuel ls nodes nsub = VLayout g sz dv sd m ->
  exists mp inv, create_remap nlb (cquot dv sd) = Some (mp, inv) /\
    let v := installed ls dv sd m mp inv in
    forall r, 0 <= r < nodes ->
      (forall c, holds (vl_lat v) r c ->
         0 <= vsite_index v (nodeinfo (vl_lat v) r) c < volume (nodeinfo (vl_lat v) r)) /\
      (forall c c', holds (vl_lat v) r c -> holds (vl_lat v) r c' ->
         vsite_index v (nodeinfo (vl_lat v) r) c = vsite_index v (nodeinfo (vl_lat v) r) c' -> c = c') /\
      (forall i, 0 <= i < volume (nodeinfo (vl_lat v) r) ->
         exists c, holds (vl_lat v) r c /\ vsite_index v (nodeinfo (vl_lat v) r) c = i).
Proof.
  intros fuel ls nodes nsub g sz dv sd m nlb H2 Hp Hn Hs H.
  destruct (vlayout_ok fuel ls nodes nsub g sz dv sd m nlb H2 Hp Hn Hs H) as (mp & inv & E & Hv & N & _).
  exists mp, inv. split; auto. intros v r Hr. fold v in Hv, N.
  assert (Hr' : is_rank (vl_lat v) r) by (unfold is_rank; rewrite N; auto).
  destruct (C61_vector_index_bijection v r Hv Hr') as (A & B & C & _). auto.
Qed.
Print Assumptions C64_accepted_layout_indexes_all_sites.

(** Accepted: an even layout with a rank of odd extent in the undivided
    direction, and an uneven one. *)
Example C64_example :
  vsetup_layout 2 [12; 12; 32] 12 8 = VLayout None [4; 3; 4] [3; 4; 8] [1; 1; 8] 2 /\
  vsetup_layout 2 [16; 16; 12] 9 8 = VLayout (Some 0%nat) [6; 2; 4] [3; 8; 3] [1; 8; 1] 1 /\
  zprod [12; 12; 32] mod (12 * 8) = 0 /\ zprod [16; 16; 12] mod (9 * 8) <> 0.
Proof. vm_compute. repeat split; discriminate. Qed.
