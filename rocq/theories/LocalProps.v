(** C84: arrays of a rank's own sites, with and without a halo; boxes and slices. *)
From Verif Require Import Common LayoutModel LayoutSpec LayoutProps ElementModel ElementSpec ElementProps
  LocalModel LocalSpec LocalProofs1 LocalProofs2 LocalProofs3 LocalProofs4 LocalProofs5.

(** C84.  [copy_local_data] fills the first volume-many elements of the array with
    the values of the rank's sites, first coordinate fastest, every element from
    exactly one site. *)
Theorem C84_copy : forall (V : Type) lat (st : rank_store V) F r old,
  valid_lattice lat -> represents lat st F -> is_rank lat r ->
  let data := copy_local_data (nodeinfo lat r) (st r) old in
  (forall c, holds lat r c -> data (offset (lower lat r) (extent lat r) c) = F c) /\
  (forall c, holds lat r c -> 0 <= offset (lower lat r) (extent lat r) c < zprod (extent lat r)) /\
  (forall i, 0 <= i < zprod (extent lat r) ->
     exists c, holds lat r c /\ offset (lower lat r) (extent lat r) c = i /\
       forall c', holds lat r c' -> offset (lower lat r) (extent lat r) c' = i -> c' = c) /\
  (forall i, ~ 0 <= i < zprod (extent lat r) -> data i = old i).
Proof.
  intros V lat st F r old Hv HF Hr data. assert (Ev := box_volume lat r Hv Hr).
  split; [|split; [|split]].
  - intros c Hc. unfold data. rewrite copy_at by auto. auto.
  - intros c Hc. apply offset_range. exact Hc.
  - intros i Hi. destruct (box_lengths lat r Hv) as [A B].
    destruct (offset_surj (lower lat r) (extent lat r) i) as (c & Hc & E); auto.
    { unfold lower, extent. lia. } { apply box_sizes; auto. }
    exists c. split; [exact Hc|]. split; auto. intros c' Hc' E'. eapply offset_inj; [exact Hc'|exact Hc|]. exact (eq_trans E' (eq_sym E)).
  - intros i Hi. unfold data. apply copy_other; auto. rewrite Ev. exact Hi.
Qed.
Print Assumptions C84_copy.

(** C84.  [set_local_data] gives every site of the rank the element of the array at
    its position and touches nothing else; an array that is too short is refused. *)
Theorem C84_set : forall (V : Type) lat (st : rank_store V) r size buffer,
  valid_lattice lat -> is_rank lat r ->
  (size < zprod (extent lat r) -> set_local_data (nodeinfo lat r) size buffer (st r) = None) /\
  (zprod (extent lat r) <= size ->
   exists vals, set_local_data (nodeinfo lat r) size buffer (st r) = Some vals /\
     (forall c, holds lat r c ->
        vals (site_index (nodeinfo lat r) c) = buffer (offset (lower lat r) (extent lat r) c)) /\
     (forall i, ~ 0 <= i < zprod (extent lat r) -> vals i = st r i)).
Proof.
  intros V lat st r size buffer Hv Hr. assert (Ev := box_volume lat r Hv Hr). unfold extent in *. split.
  - intros H. apply set_too_small. lia.
  - intros H. destruct (set_at lat r Hv Hr size buffer (st r) ltac:(lia)) as (vals & E & A & B).
    exists vals. split; [auto|]. split; [exact A|]. rewrite <- Ev. exact B.
Qed.
Print Assumptions C84_set.

(** C84.  The two are inverse to each other. *)
Theorem C84_round_trip : forall (V : Type) lat (st : rank_store V) r size old buffer,
  valid_lattice lat -> is_rank lat r -> zprod (extent lat r) <= size ->
  (forall vals, set_local_data (nodeinfo lat r) size
                  (copy_local_data (nodeinfo lat r) (st r) old) vals <> None) /\
  (forall vals vals', set_local_data (nodeinfo lat r) size
                  (copy_local_data (nodeinfo lat r) (st r) old) vals = Some vals' ->
     forall i, 0 <= i < zprod (extent lat r) -> vals' i = st r i) /\
  (forall vals, set_local_data (nodeinfo lat r) size buffer (st r) = Some vals ->
     forall i, 0 <= i < zprod (extent lat r) ->
       copy_local_data (nodeinfo lat r) vals old i = buffer i).
Proof.
  intros V lat st r size old buffer Hv Hr Hs. assert (Ev := box_volume lat r Hv Hr). unfold extent in *.
  split; [|split].
  - intros vals. destruct (set_at lat r Hv Hr size (copy_local_data (nodeinfo lat r) (st r) old) vals ltac:(lia))
      as (vals' & -> & _). discriminate.
  - intros vals vals' E i Hi. rewrite <- Ev in Hi.
    destruct (set_at lat r Hv Hr size (copy_local_data (nodeinfo lat r) (st r) old) vals ltac:(lia))
      as (w & Ew & A & _). rewrite Ew in E. injection E as <-.
    destruct (index_held lat r Hv Hr i Hi) as [Hc Ei]. rewrite <- Ei, A, copy_at by auto. auto.
  - intros vals E i Hi.
    destruct (set_at lat r Hv Hr size buffer (st r) ltac:(lia)) as (w & Ew & A & _).
    rewrite Ew in E. injection E as <-. destruct (box_lengths lat r Hv) as [LA LB].
    destruct (offset_surj (lower lat r) (extent lat r) i) as (c & Hc & Ec); auto.
    { unfold lower, extent. lia. } { apply box_sizes; auto. }
    rewrite <- Ec, copy_at, A by auto. auto.
Qed.
Print Assumptions C84_round_trip.

(** C84.  If a rank has at least two layers of sites in every direction, every
    element of its array with the halo is the value of the periodic lattice at
    the corresponding coordinates: faces, edges and corners included, for any
    number of dimensions and any sizes of the other ranks. *)
Theorem C84_halo : forall (V : Type) lat (st : rank_store V) F zero old r c x,
  valid_lattice lat -> represents lat st F -> is_rank lat r ->
  (forall j, (j < length (l_size lat))%nat -> 2 <= nth j (extent lat r) 0) ->
  in_region (outer_lower lat r) (outer_extent lat r) c -> wraps_to (l_size lat) c x ->
  copy_local_data_with_halo lat zero st old r (offset (outer_lower lat r) (outer_extent lat r) c) = F x.
Proof.
  intros V lat st F zero old r c x Hv HF Hr H2 Hc Hx.
  destruct (halo_array lat st F Hv HF zero old r c Hr ltac:(intros j Hj; specialize (H2 j Hj); lia) Hc) as [A _].
  apply A; auto. intros (j & Hj & E & _). apply extended_spec in Hc; auto. destruct Hc as [Lc _].
  rewrite Lc in Hj. specialize (H2 j Hj). lia.
Qed.
Print Assumptions C84_halo.

(** C84.  In general an element above a direction with a single layer of sites
    keeps whatever the array contained; all other elements are right. *)
Theorem C84_halo_exact : forall (V : Type) lat (st : rank_store V) F zero old r c,
  valid_lattice lat -> represents lat st F -> is_rank lat r ->
  (forall j, (j < length (l_size lat))%nat -> 1 <= nth j (extent lat r) 0) ->
  in_region (outer_lower lat r) (outer_extent lat r) c ->
  let data := copy_local_data_with_halo lat zero st old in
  (~ above_single_layer lat r c -> forall x, wraps_to (l_size lat) c x ->
     data r (offset (outer_lower lat r) (outer_extent lat r) c) = F x) /\
  (above_single_layer lat r c ->
     data r (offset (outer_lower lat r) (outer_extent lat r) c) =
     old r (offset (outer_lower lat r) (outer_extent lat r) c)).
Proof. intros V lat st F zero old r c Hv HF Hr H1 Hc. exact (halo_array lat st F Hv HF zero old r c Hr H1 Hc). Qed.
Print Assumptions C84_halo_exact.

(** C84.  So the array with the halo is not always right: on a lattice of 5 x 4
    sites divided 2 x 3, a rank with a single row has no upper row of the halo. *)
Theorem C84_halo_refuted : exists lat (st : rank_store Z) F zero old r c x,
  valid_lattice lat /\ represents lat st F /\ is_rank lat r /\
  (forall j, (j < length (l_size lat))%nat -> 1 <= nth j (extent lat r) 0) /\
  in_region (outer_lower lat r) (outer_extent lat r) c /\ wraps_to (l_size lat) c x /\
  copy_local_data_with_halo lat zero st old r (offset (outer_lower lat r) (outer_extent lat r) c) <> F x.
Proof.
  set (r := 2).
  exists ex_lat, (fun r i => 100 * r + i + 7).
  eexists. exists 0, (fun _ _ => -1), r, [nth 0 (lower ex_lat r) 0; nth 1 (lower ex_lat r) 0 + 1],
    [nth 0 (lower ex_lat r) 0; (nth 1 (lower ex_lat r) 0 + 1) mod 4].
  split; [exact ex_lat_valid|]. split; [apply (some_field Z ex_lat (fun r i => 100 * r + i + 7)), ex_lat_valid|].
  split; [vm_compute; split; congruence|].
  split. { intros [|[|j]] Hj; [vm_compute; congruence|vm_compute; congruence|cbn in Hj; lia]. }
  split. { split; [vm_compute; reflexivity|]. split; [vm_compute; reflexivity|].
           intros [|[|j]] Hj; [vm_compute; split; congruence|vm_compute; split; congruence|cbn in Hj; lia]. }
  split. { split; [reflexivity|]. intros [|[|j]] Hj; [vm_compute; congruence|vm_compute; congruence|cbn in Hj; lia]. }
  vm_compute. congruence.
Qed.
Print Assumptions C84_halo_refuted.

(** C84.  [get_subvolume] returns the values of all sites of the range, ends
    included, the first coordinate running fastest; without broadcast only on
    rank 0, and a range that is not in the lattice is refused. *)
Theorem C84_subvolume : forall (V : Type) lat (st : rank_store V) F cmin cmax bcast r,
  valid_lattice lat -> represents lat st F ->
  let inside_lattice := length cmin = length (l_size lat) /\ length cmax = length (l_size lat) /\
    forall j, (j < length (l_size lat))%nat ->
      0 <= nth j cmin 0 /\ nth j cmin 0 <= nth j cmax 0 < nth j (l_size lat) 0 in
  (~ inside_lattice -> get_subvolume lat cmin cmax bcast st r = None) /\
  (inside_lattice ->
   exists l, get_subvolume lat cmin cmax bcast st r = Some (if bcast || (r =? 0) then l else []) /\
     Z.of_nat (length l) = zprod (spans cmin cmax) /\
     forall c, in_range cmin cmax c ->
       0 <= offset cmin (spans cmin cmax) c < zprod (spans cmin cmax) /\
       nth_error l (Z.to_nat (offset cmin (spans cmin cmax) c)) = Some (F c)).
Proof.
  intros V lat st F cmin cmax bcast r Hv HF. cbv zeta. split; intros H.
  - apply subvolume_bad. destruct (range_ok (l_size lat) cmin cmax) eqn:E; auto.
    apply range_okP in E. tauto.
  - apply range_okP in H. destruct (subvolume_ok lat st F Hv HF cmin cmax bcast r H) as (l & E & A & B).
    exists l. split; [rewrite E; destruct (bcast || (r =? 0)); auto|]. auto.
Qed.
Print Assumptions C84_subvolume.

(** C84.  [get_slice] returns the values of the sites with the given coordinates
    in the directions that are not negative, all of them, once each. *)
Theorem C84_slice : forall (V : Type) lat (st : rank_store V) F slice r,
  valid_lattice lat -> represents lat st F ->
  length slice = length (l_size lat) ->
  (forall j, (j < length slice)%nat -> nth j slice 0 < nth j (l_size lat) 0) ->
  exists l place, get_slice lat slice true st r = Some l /\
    (forall c, is_site (l_size lat) c -> on_slice slice c ->
       (place c < length l)%nat /\ nth_error l (place c) = Some (F c)) /\
    (forall c c', is_site (l_size lat) c -> on_slice slice c -> is_site (l_size lat) c' -> on_slice slice c' ->
       place c = place c' -> c = c') /\
    (forall i, (i < length l)%nat ->
       exists c, is_site (l_size lat) c /\ on_slice slice c /\ place c = i).
Proof.
  intros V lat st F slice r Hv HF Hl Hs. unfold get_slice.
  set (a := slice_min slice). set (b := slice_max (l_size lat) slice).
  destruct (slice_lengths (l_size lat) slice Hl) as [La Lb]. fold a b in La, Lb.
  assert (N := slice_nth (l_size lat) slice Hl). fold a b in N.
  assert (Hok : range_ok (l_size lat) a b = true).
  { apply range_okP. split; [auto|]. split; [auto|]. intros j Hj. destruct (N j Hj) as [-> ->].
    assert (P := size_pos lat Hv j Hj). specialize (Hs j ltac:(lia)). destruct (Z.ltb_spec (nth j slice 0) 0); lia. }
  assert (Hr : forall c, in_range a b c <-> is_site (l_size lat) c /\ on_slice slice c).
  { intros c. split.
    - intros (A & B & C). split.
      + split; [lia|]. intros j Hj. specialize (C j ltac:(lia)). destruct (N j Hj) as [E1 E2].
        rewrite E1, E2 in C. specialize (Hs j ltac:(lia)). destruct (Z.ltb_spec (nth j slice 0) 0); lia.
      + split; [lia|]. intros j Hj. specialize (C j Hj). destruct (N j ltac:(lia)) as [E1 E2].
        rewrite E1, E2 in C. destruct (Z.ltb_spec (nth j slice 0) 0); lia.
    - intros [[A B] [C D]]. split; [lia|]. split; [lia|]. intros j Hj. destruct (N j ltac:(lia)) as [-> ->].
      specialize (B j ltac:(lia)). specialize (D j Hj). destruct (Z.ltb_spec (nth j slice 0) 0); lia. }
  destruct (subvolume_ok lat st F Hv HF a b true r Hok) as (l & E & A & B). cbv zeta in A, B.
  assert (Hspan : length (spans a b) = length a) by (unfold spans; rewrite map_length, seq_length; auto).
  assert (Hreg : forall c, in_range a b c <-> in_region a (spans a b) c).
  { intros c. unfold in_range, in_region. rewrite Hspan.
    assert (Sn : forall j, (j < length a)%nat -> nth j (spans a b) 0 = nth j b 0 - nth j a 0 + 1).
    { intros j Hj. unfold spans. set (f := fun j => _).
      rewrite (nth_indep (map f (seq 0 (length a))) 0 (f O)) by (rewrite map_length, seq_length; auto).
      rewrite map_nth, seq_nth by auto. reflexivity. }
    split; intros (H1 & H2 & H3); (split; [lia|]); (split; [lia|]); intros j Hj; specialize (H3 j Hj);
      rewrite Sn in * by lia; lia. }
  exists l, (fun c => Z.to_nat (offset a (spans a b) c)). split; [rewrite E; auto|]. split; [|split].
  - intros c H1 H2. destruct (B c ltac:(apply Hr; auto)) as [R Hn]. split; auto. lia.
  - intros c c' H1 H2 H3 H4 Ep. assert (I : in_range a b c) by (apply Hr; auto).
    assert (I' : in_range a b c') by (apply Hr; auto).
    destruct (B c I) as [R _]. destruct (B c' I') as [R' _].
    apply (offset_inj a (spans a b)); [apply Hreg; auto|apply Hreg; auto|lia].
  - intros i Hi. destruct (offset_surj a (spans a b) (Z.of_nat i)) as (c & Hc & Ec); [lia| |lia|].
    + apply Forall_forall. intros s Hin. unfold spans in Hin. apply in_map_iff in Hin.
      destruct Hin as (j & <- & Hj). apply in_seq in Hj. apply range_okP in Hok. destruct Hok as (_ & _ & Hok).
      specialize (Hok j ltac:(lia)). lia.
    + exists c. apply Hreg in Hc. apply Hr in Hc. destruct Hc. split; auto. split; auto. rewrite Ec. lia.
Qed.
Print Assumptions C84_slice.

(** The hypotheses are met: a rank of the 5 x 4 lattice with 3 x 2 sites, its own
    sites and its array with the halo; a box and a slice. *)
Definition ex_field (c : list Z) : Z := nth 0 c 0 + 10 * nth 1 c 0.
Definition ex_store : rank_store Z := fun r i => ex_field (coordinates (nodeinfo ex_lat r) i).

Example C84_example :
  represents ex_lat ex_store ex_field /\
  (forall j, (j < length (l_size ex_lat))%nat -> 2 <= nth j (extent ex_lat 0) 0) /\
  map (copy_local_data (nodeinfo ex_lat 0) (ex_store 0) (fun _ => -1)) (zrange 0 7) =
    [0; 1; 2; 10; 11; 12; -1] /\
  map (copy_local_data_with_halo ex_lat 0 ex_store (fun _ _ => -1) 0) (zrange 0 20) =
    [34; 30; 31; 32; 33; 4; 0; 1; 2; 3; 14; 10; 11; 12; 13; 24; 20; 21; 22; 23] /\
  get_subvolume ex_lat [1; 2] [3; 3] true ex_store 4 = Some [21; 22; 23; 31; 32; 33] /\
  get_slice ex_lat [3; -1] false ex_store 0 = Some [3; 13; 23; 33] /\
  get_subvolume ex_lat [1; 2] [3; 4] true ex_store 4 = None.
Proof.
  split.
  { intros r c Hr Hc. unfold ex_store.
    destruct (held_index ex_lat r ex_lat_valid Hr c Hc) as [_ E]. rewrite E. auto. }
  split. { intros [|[|j]] Hj; [vm_compute; congruence|vm_compute; congruence|cbn in Hj; lia]. }
  vm_compute. auto 10.
Qed.
