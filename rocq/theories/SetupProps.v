(** Property theorems C11 and C12 (automatic division of the lattice). *)
From Verif Require Import Common LayoutModel LayoutSpec LayoutProofs2 LayoutProps SetupModel SetupProofs1 SetupProofs2.

(** *** C11.  The routine has accepted divisions [dv], computed for boxes of
    size [sz], with direction [m] possibly divided unevenly. *)
Theorem C11_accepted_layout_is_valid : forall fuel ls nn m sz dv nlb,
  ls <> [] -> Forall (fun x => 0 < x) ls -> 0 < nn -> setup_layout fuel ls nn = Layout m sz dv ->
  length dv = length ls /\ zprod dv = nn /\
  exists mp inv, create_remap nlb dv = Some (mp, inv) /\
    let lat := mkLattice ls dv mp inv in
    valid_lattice lat /\ number_of_nodes lat = nn /\
    forall r, is_rank lat r ->
      forall j, (j < length ls)%nat ->
        (j <> m -> nth j (n_siz (nodeinfo lat r)) 0 = nth j sz 0 /\ 2 <= nth j sz 0) /\
        (j = m -> 1 <= nth j (n_siz (nodeinfo lat r)) 0 /\ nth j sz 0 - 1 <= nth j (n_siz (nodeinfo lat r)) 0 <= nth j sz 0) /\
        (zprod ls mod nn = 0 -> 2 <= nth j (n_siz (nodeinfo lat r)) 0).
Proof. exact layout_ok. Qed.
Print Assumptions C11_accepted_layout_is_valid.

(** The boxes tile the lattice: every site is held by exactly one rank. *)
Theorem C11_boxes_tile_the_lattice : forall fuel ls nn m sz dv nlb,
  ls <> [] -> Forall (fun x => 0 < x) ls -> 0 < nn -> setup_layout fuel ls nn = Layout m sz dv ->
  exists mp inv, create_remap nlb dv = Some (mp, inv) /\
    forall c, is_site ls c -> exists r, 0 <= r < nn /\
      forall r', 0 <= r' < nn -> (holds (mkLattice ls dv mp inv) r' c <-> r' = r).
Proof.
  intros fuel ls nn m sz dv nlb Hl Hp Hn H.
  destruct (layout_ok fuel ls nn m sz dv nlb Hl Hp Hn H) as (_ & _ & mp & inv & E & Hv & N & _).
  exists mp, inv. split; auto. intros c Hc. destruct (C02_every_site_has_exactly_one_owner _ c Hv Hc) as [A B].
  unfold is_rank in A, B. rewrite N in A, B. exists (node_rank (mkLattice ls dv mp inv) c). auto.
Qed.
Print Assumptions C11_boxes_tile_the_lattice.

(** The internal exit of the slicing loop is never taken. *)
Theorem C11_slicing_never_gets_stuck : forall fuel ls nn, ls <> [] -> Forall (fun x => 0 < x) ls -> 0 < nn ->
  setup_layout fuel ls nn <> CannotHappen.
Proof. exact never_cannot_happen. Qed.
Print Assumptions C11_slicing_never_gets_stuck.

(** Boxes of one site do occur in the unevenly divided direction, although the
    code rejects sizes below 2. *)
Theorem C11_two_sites_in_every_direction_refuted :
  exists ls nn m sz dv mp inv r, setup_layout 2 ls nn = Layout m sz dv /\ create_remap 4 dv = Some (mp, inv) /\
    0 <= r < nn /\ nth 0 (n_siz (nodeinfo (mkLattice ls dv mp inv) r)) 0 = 1.
Proof.
  exists [3; 3], 2, 0%nat, [2; 3], [2; 1].
  destruct (create_remap 4 [2; 1]) as [[mp inv]|] eqn:E; [|vm_compute in E; discriminate].
  exists mp, inv, 1. split; [vm_compute; reflexivity|]. split; auto. split; [lia|].
  assert (inv 1 = 1). { vm_compute in E. inversion E. reflexivity. }
  rewrite nodeinfo_siz. cbn [l_size n_divisions inverse_remap]. rewrite H. vm_compute. reflexivity.
Qed.
Print Assumptions C11_two_sites_in_every_direction_refuted.

(** An even and an uneven layout that are accepted. *)
Example C11_example : setup_layout 2 [8; 8; 8; 16] 16 = Layout 0 [8; 4; 4; 4] [1; 2; 2; 4] /\
  setup_layout 2 [15; 9; 8] 14 = Layout 0 [3; 9; 4] [7; 1; 2].
Proof. vm_compute. split; reflexivity. Qed.

(** *** C12 *)
Theorem C12_done_after_two_turns_or_never : forall ls nn,
  (forall fuel, (2 <= fuel)%nat -> setup_layout fuel ls nn = setup_layout 2 ls nn /\ setup_layout fuel ls nn <> LoopsOn) \/
  (forall fuel, setup_layout fuel ls nn = LoopsOn).
Proof. exact two_turns_or_never. Qed.
Print Assumptions C12_done_after_two_turns_or_never.

(** If the number of ranks divides the volume the routine always terminates. *)
Theorem C12_terminates_if_ranks_divide_volume : forall ls nn fuel,
  Forall (fun x => 0 < x) ls -> 0 < nn -> zprod ls mod nn = 0 -> (2 <= fuel)%nat ->
  setup_layout fuel ls nn <> LoopsOn.
Proof. exact terminates_even. Qed.
Print Assumptions C12_terminates_if_ranks_divide_volume.

(** A 3 x 9 x 9 x 9 lattice on 4 ranks: the loop never ends. *)
Theorem C12_terminates_refuted : exists ls nn, ls <> [] /\ Forall (fun x => 0 < x) ls /\ 0 < nn /\
  forall fuel, setup_layout fuel ls nn = LoopsOn.
Proof.
  exists [3; 9; 9; 9], 4. split; [discriminate|]. split; [repeat constructor|]. split; [lia|].
  destruct (two_turns_or_never [3; 9; 9; 9] 4) as [H|H]; auto.
  exfalso. destruct (H 2%nat ltac:(lia)) as [_ X]. apply X. vm_compute. reflexivity.
Qed.
Print Assumptions C12_terminates_refuted.

Example C12_example : zprod [6; 10; 4] mod 8 = 0 /\ setup_layout 2 [6; 10; 4] 8 = Layout 0 [3; 5; 2] [2; 2; 2] /\
  zprod [2; 2] mod 4 = 0 /\ setup_layout 2 [2; 2] 4 = LayoutFail.
Proof. vm_compute. repeat split; reflexivity. Qed.
