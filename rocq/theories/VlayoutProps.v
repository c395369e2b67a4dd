(** C61-C63: the vectorised (AVX) site layout and its halo update. *)
From Verif Require Import Common LayoutModel LayoutSpec LayoutProofs1 LayoutProofs2 LayoutProofs8 LayoutProps VlayoutModel VlayoutSpec
  VlayoutProofs2 VlayoutProofs8 VlayoutProofs9 VlayoutProofs10.

(** ** C61: the site index *)

(** On every rank the index is a bijection between the rank's sites and
    0 .. volume-1, with the even sites first. *)
Theorem C61_vector_index_bijection : forall v r, valid_vlattice v -> is_rank (vl_lat v) r ->
  let ni := nodeinfo (vl_lat v) r in
  (forall c, holds (vl_lat v) r c -> 0 <= vsite_index v ni c < volume ni) /\
  (forall c c', holds (vl_lat v) r c -> holds (vl_lat v) r c' -> vsite_index v ni c = vsite_index v ni c' -> c = c') /\
  (forall i, 0 <= i < volume ni -> exists c, holds (vl_lat v) r c /\ vsite_index v ni c = i) /\
  (forall c, holds (vl_lat v) r c -> (site_even c <-> vsite_index v ni c < n_even ni)).
Proof.
  intros v r Hv Hr ni. split; [intros; apply (index_range v Hv); auto|].
  split; [intros; apply (index_inj v Hv r); auto|]. split; [intros; apply (index_surj v Hv); auto|].
  intros c Hc. unfold ni. rewrite <- (index_parity v Hv r c Hr Hc). apply (has_parity_even EVEN).
Qed.
Print Assumptions C61_vector_index_bijection.

(** The coordinates array is the inverse. *)
Theorem C61_vector_coordinates_invert_index : forall v r, valid_vlattice v -> is_rank (vl_lat v) r ->
  let ni := nodeinfo (vl_lat v) r in
  (forall c, holds (vl_lat v) r c -> vcoordinates v ni (vsite_index v ni c) = c) /\
  (forall i, 0 <= i < volume ni ->
     holds (vl_lat v) r (vcoordinates v ni i) /\ vsite_index v ni (vcoordinates v ni i) = i).
Proof.
  intros v r Hv Hr ni. split; [intros; apply (crd_index v Hv); auto|intros; apply (crd_spec v Hv); auto].
Qed.
Print Assumptions C61_vector_coordinates_invert_index.

(** One index serves both vector widths: cut into vectors of the width of
    either element size, the index has sites at the same place of their
    subnodes in one vector, and each subnode in one lane - the same lane on
    every rank. *)
Theorem C61_vectors_and_lanes : forall v (dbl : bool) r, valid_vlattice v -> is_rank (vl_lat v) r ->
  let ni := nodeinfo (vl_lat v) r in
  let w := vector_size v dbl in
  0 < w /\ (volume ni) mod w = 0 /\
  (forall c c', holds (vl_lat v) r c -> holds (vl_lat v) r c' ->
     (vsite_index v ni c / w = vsite_index v ni c' / w <-> same_place v dbl r c c')) /\
  (forall c c', holds (vl_lat v) r c -> holds (vl_lat v) r c' ->
     (vsite_index v ni c mod w = vsite_index v ni c' mod w <-> same_subnode v dbl r c c')) /\
  (forall r' c c', is_rank (vl_lat v) r' -> holds (vl_lat v) r c -> holds (vl_lat v) r' c' ->
     (forall j, (j < length (l_size (vl_lat v)))%nat -> subnode_of v dbl r c j = subnode_of v dbl r' c' j) ->
     vsite_index v ni c mod w = vsite_index v (nodeinfo (vl_lat v) r') c' mod w).
Proof.
  intros v dbl r Hv Hr ni w.
  assert (Hw : 0 < w) by apply (W_prod v Hv dbl). split; auto.
  split. { destruct (v_sites_eq v Hv dbl r Hr) as [E _]. unfold ni. rewrite <- E. apply Z.mod_mul. unfold w in Hw. lia. }
  split; [|split].
  - intros c c' Hc Hc'. destruct (index_div v Hv dbl r c Hr Hc) as [E _]. destruct (index_div v Hv dbl r c' Hr Hc') as [E' _].
    unfold ni, w. rewrite E, E'. apply (vec_place v Hv); auto.
  - intros c c' Hc Hc'. destruct (index_div v Hv dbl r c Hr Hc) as [_ E]. destruct (index_div v Hv dbl r c' Hr Hc') as [_ E'].
    unfold ni, w. rewrite E, E'. apply (lane_subnode v Hv); auto.
  - intros r' c c' Hr' Hc Hc' H. destruct (index_div v Hv dbl r c Hr Hc) as [_ E].
    destruct (index_div v Hv dbl r' c' Hr' Hc') as [_ E']. unfold ni, w. rewrite E, E'. apply (lane_subnode v Hv); auto.
Qed.
Print Assumptions C61_vectors_and_lanes.

(** The example: an 8 x 4 lattice on two ranks; four lanes, two in each
    direction; 64-bit vectors have two lanes, in the second direction. *)
Definition ex_vmaps := match create_remap 4 [2; 1] with Some m => m | None => (fun _ => 0, fun _ => 0) end.
Definition ex_v : vlattice := mkVlattice (mkLattice [8; 4] [2; 1] (fst ex_vmaps) (snd ex_vmaps)) [2; 2] 0.

Lemma ex_v_ranks : forall r, is_rank (vl_lat ex_v) r -> r = 0 \/ r = 1.
Proof. intros r [H1 H2]. cbn in H2. lia. Qed.

Example C61_example_valid : valid_vlattice ex_v.
Proof.
  split; [apply (C03_blocked_layout_is_valid 4); try reflexivity; repeat constructor|].
  split; [reflexivity|]. split; [repeat constructor; lia|]. split; [cbn; lia|]. split; [reflexivity|].
  split; [intros [|[|j]] Hj; cbn in *; lia|]. split.
  - intros r j Hr Hj. cbn in Hj. exists 2.
    destruct (ex_v_ranks r Hr) as [->| ->]; destruct j as [|[|j]]; try lia; vm_compute; repeat split; auto.
  - intros r Hr. exists 0%nat, 1%nat. cbn [vl_lat ex_v l_size length].
    destruct (ex_v_ranks r Hr) as [->| ->]; vm_compute; repeat split; auto; discriminate.
Qed.

(** Its vectors: the sites of the first two 32-bit vectors and the first three
    64-bit vectors of rank 1. *)
Example C61_example_vectors :
  map (vcoordinates ex_v (nodeinfo (vl_lat ex_v) 1)) (zrange 0 8) =
  [[4; 0]; [4; 2]; [6; 0]; [6; 2]; [5; 1]; [5; 3]; [7; 1]; [7; 3]] /\
  is_permutation ex_v false 0 = true /\ is_permutation ex_v true 0 = false /\ is_permutation ex_v true 1 = true.
Proof. vm_compute. auto. Qed.

(** ** C62: the halo *)

(** Start from memories in which every rank has the values of a field F at its
    own sites (and anything in the halos), and let any history of halo updates
    run, in any directions and parities.  Then the own sites still have their
    values, and for every direction and parity that was requested, reading the
    neighbour vector of a site in that site's lane gives F at the periodic
    neighbour - whether the neighbour is in the same subnode, in another lane,
    across the lattice edge, or on another rank. *)
Theorem C62_vector_halo : forall (T : Type) v (dbl : bool) (F : list Z -> T) st reqs,
  valid_vlattice v -> vrepresents v st F ->
  Forall (fun q => is_direction (l_size (vl_lat v)) (fst q)) reqs ->
  let st' := run_gathers T v dbl st reqs in
  vrepresents v st' F /\
  forall d p r c, In (d, p) reqs -> is_rank (vl_lat v) r -> holds (vl_lat v) r c -> has_parity p c ->
    st' r (read_position v dbl r d (vsite_index v (nodeinfo (vl_lat v) r) c)) = F (neighbour (vl_lat v) c d).
Proof.
  intros T v dbl F st reqs Hv Hst HF st'. split; [apply (run_good v Hv dbl T F reqs st 0 ALL HF Hst)|].
  intros d p r c Hin Hr Hc Hp. apply (run_good v Hv dbl T F reqs st d p HF Hst); auto.
Qed.
Print Assumptions C62_vector_halo.

Definition ex_vF (c : list Z) : Z := 1 + 10 * nth 0 c 0 + nth 1 c 0.
Definition ex_vst (r i : Z) : Z :=
  if (0 <=? i) && (i <? 16) then ex_vF (vcoordinates ex_v (nodeinfo (vl_lat ex_v) r) i) else -1.

Example C62_example_fields : vrepresents ex_v ex_vst ex_vF.
Proof.
  intros r c Hr Hc. destruct (C61_vector_index_bijection ex_v r C61_example_valid Hr) as [B _].
  specialize (B c Hc). destruct (C61_vector_coordinates_invert_index ex_v r C61_example_valid Hr) as [C _].
  unfold ex_vst. rewrite (C c Hc).
  assert (Ev : volume (nodeinfo (vl_lat ex_v) r) = 16) by (destruct (ex_v_ranks r Hr) as [->| ->]; reflexivity).
  rewrite Ev in B. replace (0 <=? _) with true by (symmetry; apply Z.leb_le; lia).
  replace (_ <? _) with true by (symmetry; apply Z.ltb_lt; lia). auto.
Qed.

(** Both widths: what rank 0 reads for the sites with first coordinate 3 (the
    last before rank 1) after updates in the four directions. *)
Example C62_example_run :
  let reqs := [(0, EVEN); (1, ALL); (3, ODD); (0, ODD); (2, ALL)] in
  Forall (fun q => is_direction (l_size (vl_lat ex_v)) (fst q)) reqs /\
  (forall dbl : bool, map (fun c => run_gathers Z ex_v dbl ex_vst reqs 0
     (read_position ex_v dbl 0 0 (vsite_index ex_v (nodeinfo (vl_lat ex_v) 0) c))) [[3; 0]; [3; 1]; [3; 2]; [0; 3]]
   = [41; 42; 43; 14]).
Proof.
  split; [repeat constructor; cbn; lia|]. intros []; vm_compute; reflexivity.
Qed.

(** ** C63: antiperiodic boundary conditions *)

(** In a direction that is not divided between the lanes of a vector the
    update delivers the neighbour's value, negated exactly when the step
    crosses the edge of the lattice. *)
Theorem C63_antiperiodic_without_permutation : forall (T : Type) (neg : T -> T) v (dbl : bool) d p st (F : list Z -> T),
  valid_vlattice v -> is_direction (l_size (vl_lat v)) d -> is_permutation v dbl d = false ->
  vrepresents v st F ->
  let st' := vgather_anti T neg v dbl d p st in
  vrepresents v st' F /\
  forall r c, is_rank (vl_lat v) r -> holds (vl_lat v) r c -> has_parity p c ->
    st' r (read_position v dbl r d (vsite_index v (nodeinfo (vl_lat v) r) c)) =
      antiperiodic_value neg (vl_lat v) F c d.
Proof.
  intros T neg v dbl d p st F Hv Hd Hnp Hst st'. split.
  - intros r c Hr Hc. rewrite <- (Hst r c Hr Hc).
    destruct (anti_spec v Hv dbl r d Hr Hd T neg st F p Hnp Hst) as [A _]. apply A. apply (index_range v Hv); auto.
  - intros r c Hr Hc Hp. apply (anti_spec v Hv dbl r d Hr Hd T neg st F p Hnp Hst); auto.
Qed.
Print Assumptions C63_antiperiodic_without_permutation.

Example C63_example : is_direction (l_size (vl_lat ex_v)) 0 /\ is_permutation ex_v true 0 = false /\
  map (fun c => vgather_anti Z Z.opp ex_v true 0 ALL ex_vst 1
     (read_position ex_v true 1 0 (vsite_index ex_v (nodeinfo (vl_lat ex_v) 1) c))) [[5; 0]; [6; 2]; [7; 0]; [7; 3]]
   = [61; 73; -1; -4].
Proof. split; [unfold is_direction; cbn; lia|]. vm_compute. auto. Qed.

(** In a direction that is divided between lanes it does not: the sign is put
    on every lane of a boundary vector, also on those whose neighbour is in the
    next subnode, inside the lattice. *)
Theorem C63_antiperiodic_refuted :
  ~ (forall v (dbl : bool) d st (F : list Z -> Z) r c,
       valid_vlattice v -> is_direction (l_size (vl_lat v)) d -> vrepresents v st F ->
       is_rank (vl_lat v) r -> holds (vl_lat v) r c ->
       vgather_anti Z Z.opp v dbl d ALL st r (read_position v dbl r d (vsite_index v (nodeinfo (vl_lat v) r) c)) =
         antiperiodic_value Z.opp (vl_lat v) F c d).
Proof.
  intros H. assert (Hc : holds (vl_lat ex_v) 0 [0; 1]).
  { split; [reflexivity|]. split; [reflexivity|]. intros [|[|j]] Hj; vm_compute in Hj |- *; try lia; split; congruence. }
  assert (Hr : is_rank (vl_lat ex_v) 0) by (split; vm_compute; congruence).
  specialize (H ex_v false 1 ex_vst ex_vF 0 [0; 1] C61_example_valid ltac:(unfold is_direction; cbn; lia) C62_example_fields Hr Hc).
  vm_compute in H. discriminate.
Qed.
Print Assumptions C63_antiperiodic_refuted.
