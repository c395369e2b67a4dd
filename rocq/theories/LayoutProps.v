(** Property theorems C01-C04 and C08 (layout, site order, halo, directions). *)
From Verif Require Import Common LayoutModel LayoutSpec LayoutProofs1 LayoutProofs2 LayoutProofs3
  LayoutProofs4 LayoutProofs5 LayoutProofs6 LayoutProofs7 LayoutProofs8.

(** ** A concrete lattice meeting the hypotheses: 5 x 4 sites (an odd size, an
    uneven division) on 2 x 3 ranks, block-wise remapping with block size 4. *)
Definition ex_maps := match create_remap 4 [2; 3] with Some m => m | None => (fun _ => 0, fun _ => 0) end.
Definition ex_lat : lattice := mkLattice [5; 4] [2; 3] (fst ex_maps) (snd ex_maps).

(** *** C01 *)

Theorem C01_site_index_bijection : forall lat r, valid_lattice lat -> is_rank lat r ->
  let ni := nodeinfo lat r in
  (forall c, holds lat r c -> 0 <= site_index ni c < volume ni) /\
  (forall c c', holds lat r c -> holds lat r c' -> site_index ni c = site_index ni c' -> c = c') /\
  (forall i, 0 <= i < volume ni -> exists c, holds lat r c /\ site_index ni c = i).
Proof. exact site_index_bijection. Qed.
Print Assumptions C01_site_index_bijection.

Theorem C01_volume_is_product_of_extents : forall lat r, valid_lattice lat -> is_rank lat r ->
  volume (nodeinfo lat r) = zprod (n_siz (nodeinfo lat r)).
Proof. exact rank_volume. Qed.
Print Assumptions C01_volume_is_product_of_extents.

Theorem C01_even_sites_first : forall lat r, valid_lattice lat -> is_rank lat r ->
  forall c, holds lat r c ->
  (site_even c <-> site_index (nodeinfo lat r) c < n_even (nodeinfo lat r)).
Proof. exact site_index_parity_split. Qed.
Print Assumptions C01_even_sites_first.

Theorem C01_site_loop_visits_each_site_once : forall lat r p, valid_lattice lat -> is_rank lat r ->
  let visited := map (coordinates (nodeinfo lat r)) (loop_indices (nodeinfo lat r) p) in
  NoDup visited /\ (forall c, In c visited <-> holds lat r c /\ has_parity p c).
Proof. exact loop_visits. Qed.
Print Assumptions C01_site_loop_visits_each_site_once.

Theorem C01_coordinates_invert_site_index : forall lat r, valid_lattice lat -> is_rank lat r ->
  let ni := nodeinfo lat r in
  (forall c, holds lat r c -> coordinates ni (site_index ni c) = c) /\
  (forall i, 0 <= i < volume ni ->
     holds lat r (coordinates ni i) /\ site_index ni (coordinates ni i) = i).
Proof. exact coordinates_inverse. Qed.
Print Assumptions C01_coordinates_invert_site_index.

(** *** C02 *)

Theorem C02_every_site_has_exactly_one_owner : forall lat c, valid_lattice lat ->
  is_site (l_size lat) c ->
  is_rank lat (node_rank lat c) /\
  forall r, is_rank lat r -> (holds lat r c <-> r = node_rank lat c).
Proof. exact owner_unique. Qed.
Print Assumptions C02_every_site_has_exactly_one_owner.

Theorem C02_ranks_hold_only_lattice_sites : forall lat r c, valid_lattice lat -> is_rank lat r ->
  holds lat r c -> is_site (l_size lat) c.
Proof. exact holds_is_site. Qed.
Print Assumptions C02_ranks_hold_only_lattice_sites.

(** *** C03 *)

Theorem C03_block_remap_is_a_permutation : forall nlb nd, Forall (fun x => 0 < x) nd ->
  exists m inv, create_remap nlb nd = Some (m, inv) /\
  (forall i, 0 <= i < zprod nd -> 0 <= m i < zprod nd /\ inv (m i) = i) /\
  (forall r, 0 <= r < zprod nd -> 0 <= inv r < zprod nd /\ m (inv r) = r).
Proof. exact create_remap_ok. Qed.
Print Assumptions C03_block_remap_is_a_permutation.

(** The lattices the program sets up (block-wise remapping or the trivial one)
    are therefore [valid_lattice]s. *)
Theorem C03_blocked_layout_is_valid : forall nlb ls nd m inv,
  length ls = length nd -> Forall (fun x => 0 < x) ls -> Forall (fun x => 0 < x) nd ->
  create_remap nlb nd = Some (m, inv) -> valid_lattice (mkLattice ls nd m inv).
Proof.
  intros nlb ls nd m inv H1 H2 H3 H4.
  destruct (create_remap_ok nlb nd H3) as (m' & inv' & E & Ha & Hb).
  rewrite H4 in E. inversion E; subst. repeat split; auto; apply Ha || apply Hb; auto.
Qed.
Print Assumptions C03_blocked_layout_is_valid.

Theorem C03_trivial_layout_is_valid : forall ls nd,
  length ls = length nd -> Forall (fun x => 0 < x) ls -> Forall (fun x => 0 < x) nd ->
  valid_lattice (mkLattice ls nd (fun i => i) (fun i => i)).
Proof. intros. repeat split; auto; intros; apply H2. Qed.
Print Assumptions C03_trivial_layout_is_valid.

Example ex_lat_valid : valid_lattice ex_lat.
Proof.
  apply (C03_blocked_layout_is_valid 4); try reflexivity; repeat constructor.
Qed.

(** Ranks of the 5 x 4 example: uneven boxes, and the remapped rank numbers. *)
Example ex_lat_boxes :
  map (fun r => (n_min (nodeinfo ex_lat r), n_siz (nodeinfo ex_lat r), n_even (nodeinfo ex_lat r))) (zrange 0 6) =
  [([0; 0], [3; 2], 3); ([3; 0], [2; 2], 2); ([0; 2], [3; 1], 2); ([3; 2], [2; 1], 1);
   ([0; 3], [3; 1], 1); ([3; 3], [2; 1], 1)].
Proof. vm_compute. reflexivity. Qed.

(** A 4 x 2 node grid with block size 4: the remapping is not the identity. *)
Example ex_remap_not_trivial :
  match create_remap 4 [4; 2] with
  | Some (m, _) => map m (zrange 0 8) = [0; 1; 4; 5; 2; 3; 6; 7]
  | None => False
  end.
Proof. vm_compute. reflexivity. Qed.

Example ex_C01 : holds ex_lat 0 [2; 1] /\ site_index (nodeinfo ex_lat 0) [2; 1] = 5 /\
  coordinates (nodeinfo ex_lat 0) 5 = [2; 1] /\ ~ site_even [2; 1].
Proof.
  split; [apply holds_on_node; vm_compute; reflexivity|].
  vm_compute. repeat split; auto. discriminate.
Qed.

Example ex_C02 : is_site [5; 4] [4; 2] /\ node_rank ex_lat [4; 2] = 3.
Proof. split; [apply is_site_inside; repeat constructor; lia|reflexivity]. Qed.

(** *** C04 *)

Theorem C04_neighbour_read_after_gather : forall (V : Type) lat, valid_lattice lat ->
  forall d p (st : Z -> Z -> V) F, is_direction (l_size lat) d -> represents lat st F ->
  forall r c c', is_rank lat r -> holds lat r c -> has_parity p c ->
  periodic_neighbour (l_size lat) c d c' ->
  read_neighbour lat r d (site_index (nodeinfo lat r) c) (gather lat d p st) = F c'.
Proof.
  intros V lat Hv d p st F Hd HF r c c' Hr Hc Hp Hn.
  rewrite (neighbour_periodic lat c d c' Hv Hd (holds_is_site lat r c Hv Hr Hc) Hn).
  exact (proj1 (gather_correct lat Hv V d p st F Hd HF) r c Hr Hc Hp).
Qed.
Print Assumptions C04_neighbour_read_after_gather.

(** Gathering leaves the field itself unchanged and touches only the halo part
    of its direction and parity. *)
Theorem C04_gather_only_fills_its_halo : forall (V : Type) lat, valid_lattice lat ->
  forall d p (st : Z -> Z -> V) F, is_direction (l_size lat) d -> represents lat st F ->
  represents lat (gather lat d p st) F /\
  forall r k, is_rank lat r ->
      ~ (cn_offset (from_node lat r d) p <= k < cn_offset (from_node lat r d) p + n_sites (from_node lat r d) p) ->
      gather lat d p st r k = st r k.
Proof.
  intros V lat Hv d p st F Hd HF. exact (proj2 (gather_correct lat Hv V d p st F Hd HF)).
Qed.
Print Assumptions C04_gather_only_fills_its_halo.

(** Receiver and sender agree on each other and on the message length. *)
Theorem C04_messages_match : forall lat, valid_lattice lat ->
  forall d r, is_direction (l_size lat) d -> is_rank lat r ->
  let s := cn_rank (from_node lat r d) in
  s <> r -> is_rank lat s /\ cn_rank (to_node lat s d) = r /\
    forall p, n_sites (to_node lat s d) p = n_sites (from_node lat r d) p.
Proof. exact messages_match. Qed.
Print Assumptions C04_messages_match.

Theorem C04_every_send_has_a_receiver : forall lat, valid_lattice lat ->
  forall d s, is_direction (l_size lat) d -> is_rank lat s ->
  let r := cn_rank (to_node lat s d) in
  r <> s -> is_rank lat r /\ cn_rank (from_node lat r d) = s.
Proof. exact messages_match_back. Qed.
Print Assumptions C04_every_send_has_a_receiver.

(** Neighbour indices stay inside the allocated array, point into the local
    part exactly for on-rank neighbours and otherwise into the halo section of
    their own direction (sections of different directions are disjoint). *)
Theorem C04_neighbour_index_in_range : forall lat r d c, valid_lattice lat -> is_rank lat r ->
  is_direction (l_size lat) d -> holds lat r c ->
  let k := neighb lat r d (site_index (nodeinfo lat r) c) in
  0 <= k < field_alloc_size lat r /\
  (k < volume (nodeinfo lat r) <-> holds lat r (neighbour lat c d)) /\
  (volume (nodeinfo lat r) <= k ->
     cn_buffer (from_node lat r d) <= k < cn_buffer (from_node lat r d) + cn_sites (from_node lat r d)).
Proof.
  intros lat r d c Hv Hr Hd Hc k. destruct (neighb_range lat r d c Hv Hr Hd Hc) as (H1 & H2 & H3).
  destruct (from_node_sites lat Hv r d ALL Hr Hd) as [_ ->].
  rewrite <- halo_start_succ by auto. auto.
Qed.
Print Assumptions C04_neighbour_index_in_range.

(** Instance: rank 0 holds [0..2]x[0..1]; after gathering direction -x (number
    3) the read at (0,1) gives the value of (4,1), held by rank 1. *)
Definition ex_F (c : list Z) : Z := match c with [x; y] => 10 * x + y | _ => -1 end.
Definition ex_st (r i : Z) : Z :=
  if i <? volume (nodeinfo ex_lat r) then ex_F (coordinates (nodeinfo ex_lat r) i) else -7.

Example ex_st_represents : represents ex_lat ex_st ex_F.
Proof.
  intros r c Hr Hc. unfold ex_st.
  destruct (site_index_bijection ex_lat r ex_lat_valid Hr) as [Hb _]. specialize (Hb c Hc).
  destruct (Z.ltb_spec (site_index (nodeinfo ex_lat r) c) (volume (nodeinfo ex_lat r))); [|lia].
  destruct (coordinates_inverse ex_lat r ex_lat_valid Hr) as [Hi _]. rewrite Hi; auto.
Qed.

Example ex_C04 :
  read_neighbour ex_lat 0 3 (site_index (nodeinfo ex_lat 0) [0; 1]) ex_st = -7 /\
  read_neighbour ex_lat 0 3 (site_index (nodeinfo ex_lat 0) [0; 1]) (gather ex_lat 3 ODD ex_st) = 41 /\
  cn_rank (from_node ex_lat 0 3) = 1 /\ n_sites (from_node ex_lat 0 3) ODD = 1.
Proof. vm_compute. auto. Qed.

(** *** C08 *)

Theorem C08_opposite_direction : forall n d, opp_dir n (opp_dir n d) = d /\ opp_dir n d <> d /\
  (0 <= d < 2 * n -> 0 <= opp_dir n d < 2 * n).
Proof. exact (fun n d => conj (opp_dir_involutive n d) (conj (opp_dir_neq n d) (opp_dir_range n d))). Qed.
Print Assumptions C08_opposite_direction.

Theorem C08_add_then_subtract_direction : forall c d, 0 <= d < 2 * Z.of_nat (length c) ->
  sub_dir (add_dir c d) d = c /\ add_dir (sub_dir c d) d = c /\
  sub_dir c d = add_dir c (opp_dir (Z.of_nat (length c)) d).
Proof. exact add_sub_dir. Qed.
Print Assumptions C08_add_then_subtract_direction.

Theorem C08_periodic_modulo : forall c m, length c = length m -> Forall (fun x => 0 < x) m ->
  is_site m (cmod c m) /\
  forall j, (j < length m)%nat -> exists q, nth j c 0 = nth j (cmod c m) 0 + q * nth j m 0.
Proof. exact cmod_spec. Qed.
Print Assumptions C08_periodic_modulo.

Theorem C08_neighbour_is_periodic_step : forall ls, Forall (fun x => 0 < x) ls ->
  forall d, is_direction ls d -> forall c, is_site ls c ->
  forall c', periodic_neighbour ls c d c' <-> c' = cmod (add_dir c d) ls.
Proof. exact nbr_periodic. Qed.
Print Assumptions C08_neighbour_is_periodic_step.

Theorem C08_step_forth_and_back : forall ls d c, Forall (fun x => 0 < x) ls ->
  is_direction ls d -> is_site ls c ->
  cmod (add_dir (cmod (add_dir c d) ls) (opp_dir (Z.of_nat (length ls)) d)) ls = c.
Proof. exact nbr_opp_inverse. Qed.
Print Assumptions C08_step_forth_and_back.

Theorem C08_step_flips_parity : forall c d, 0 <= d < 2 * Z.of_nat (length c) ->
  (site_even (add_dir c d) <-> ~ site_even c).
Proof. exact add_dir_parity. Qed.
Print Assumptions C08_step_flips_parity.

Theorem C08_periodic_step_flips_parity_on_even_lattices : forall ls c d,
  Forall (fun x => 0 < x) ls -> is_direction ls d -> is_site ls c ->
  Z.even (nth (axis (length ls) d) ls 0) = true ->
  (site_even (cmod (add_dir c d) ls) <-> ~ site_even c).
Proof. exact nbr_parity. Qed.
Print Assumptions C08_periodic_step_flips_parity_on_even_lattices.

(** On an odd size the wrap-around step keeps the parity, so the hypothesis is needed. *)
Theorem C08_odd_size_wrap_keeps_parity_refuted : exists ls c d,
  Forall (fun x => 0 < x) ls /\ is_direction ls d /\ is_site ls c /\
  ~ (site_even (cmod (add_dir c d) ls) <-> ~ site_even c).
Proof.
  exists [3], [2], 0. repeat split; auto; try (repeat constructor); try (simpl; lia).
  - destruct j; simpl in *; lia.
  - destruct j; simpl in *; lia.
  - vm_compute. intuition.
Qed.
Print Assumptions C08_odd_size_wrap_keeps_parity_refuted.

Example ex_C08 : is_site [4; 6] [3; 5] /\ cmod (add_dir [3; 5] 0) [4; 6] = [0; 5] /\
  cmod (add_dir [0; 5] 3) [4; 6] = [3; 5] /\ cmod [-5; 13] [4; 6] = [3; 1].
Proof. split; [apply is_site_inside; repeat constructor; lia|vm_compute; auto]. Qed.
