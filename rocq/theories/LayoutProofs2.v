(** Proofs for C01, C02: ownership, site index bijection. *)
From Verif Require Import Common LayoutModel LayoutSpec LayoutProofs1.

(** ** Links between specification and model predicates *)

Lemma grid_of : forall ls nd, length ls = length nd -> Forall (fun x => 0 < x) ls ->
  Forall (fun x => 0 < x) nd -> grid ls nd.
Proof.
  induction ls; destruct nd; simpl; intros; try discriminate; constructor;
    inversion H0; inversion H1; subst; auto.
Qed.

Lemma valid_grid : forall lat, valid_lattice lat -> grid (l_size lat) (n_divisions lat).
Proof. intros lat (H1 & H2 & H3 & _). apply grid_of; auto. Qed.

Lemma is_site_inside : forall ls c, is_site ls c <-> inside ls c.
Proof.
  unfold is_site, inside. induction ls as [|L ls IH]; intros c; split.
  - intros [H _]. destruct c; [constructor|discriminate].
  - intros H. inversion H; subst. split; auto. simpl. intros. lia.
  - intros [H Hn]. destruct c as [|x c]; [discriminate|]. constructor.
    + apply (Hn 0%nat). simpl. lia.
    + apply IH. split; [simpl in H; lia|]. intros j Hj. apply (Hn (S j)). simpl. lia.
  - intros H. inversion H; subst. apply IH in H4. destruct H4 as [Hl Hn]. split.
    + simpl. lia.
    + intros [|j] Hj; simpl; auto. apply Hn. simpl in Hj. lia.
Qed.

Lemma in_region_box : forall mn sz c, in_region mn sz c <-> in_box mn sz c = true.
Proof.
  unfold in_region. induction mn as [|m mn IH]; intros sz c; split.
  - intros (H1 & H2 & _). destruct c; [|discriminate]. destruct sz; [auto|discriminate].
  - destruct sz, c; try discriminate. intros _. simpl. repeat split; auto; intros; lia.
  - intros (H1 & H2 & H3). destruct c as [|x c]; [discriminate|].
    destruct sz as [|s sz]; [discriminate|]. cbn [in_box].
    assert (Hx := H3 0%nat ltac:(simpl; lia)). simpl in Hx.
    rewrite !andb_true_iff. split; [lia|]. apply IH. simpl in *.
    split; [lia|]. split; [lia|]. intros j Hj. apply (H3 (S j)). lia.
  - destruct sz as [|s sz], c as [|x c]; try discriminate. cbn [in_box].
    rewrite !andb_true_iff. intros [[Ha Hb] Hr]. apply IH in Hr. destruct Hr as (H1 & H2 & H3).
    simpl. split; [lia|]. split; [lia|]. intros [|j] Hj; [lia|]. apply H3. lia.
Qed.

Lemma nodeinfo_min : forall lat r, n_min (nodeinfo lat r) =
  node_min (l_size lat) (n_divisions lat) (inverse_remap lat r).
Proof.
  intros. unfold nodeinfo, count_sites. destruct (_ =? 0); [|destruct (even_site _)]; auto.
Qed.

Lemma nodeinfo_siz : forall lat r, n_siz (nodeinfo lat r) =
  node_size (l_size lat) (n_divisions lat) (inverse_remap lat r).
Proof.
  intros. unfold nodeinfo, count_sites. destruct (_ =? 0); [|destruct (even_site _)]; auto.
Qed.

Lemma holds_on_node : forall lat r c, holds lat r c <-> is_on_node (nodeinfo lat r) c = true.
Proof. intros. unfold holds, is_on_node. apply in_region_box. Qed.

Lemma holds_iff : forall lat r c, valid_lattice lat -> is_rank lat r ->
  (holds lat r c <->
   is_site (l_size lat) c /\
   logical_node (l_size lat) (n_divisions lat) c = inverse_remap lat r).
Proof.
  intros lat r c Hv Hr. assert (Hg := valid_grid _ Hv).
  destruct Hv as (Hlen & _ & _ & Hm & Hi).
  rewrite holds_on_node. unfold is_on_node. rewrite nodeinfo_min, nodeinfo_siz.
  rewrite is_site_inside. split.
  - intros H. apply in_box_logical; auto.
    + apply in_box_length in H. destruct H. rewrite H. apply node_min_length; auto.
    + apply (Hi r); auto.
  - intros [H1 H2]. apply in_box_logical; auto.
    + apply is_site_inside in H1. apply H1.
    + apply (Hi r); auto.
Qed.

(** C02 *)
Lemma owner_unique : forall lat c, valid_lattice lat -> is_site (l_size lat) c ->
  is_rank lat (node_rank lat c) /\
  forall r, is_rank lat r -> (holds lat r c <-> r = node_rank lat c).
Proof.
  intros lat c Hv Hc. assert (Hg := valid_grid _ Hv).
  assert (Hv' := Hv). destruct Hv as (Hlen & _ & _ & Hm & Hi).
  assert (Hc' := Hc). apply is_site_inside in Hc'.
  assert (Hl := logical_node_range _ _ _ Hg Hc').
  fold (number_of_nodes lat) in Hl. destruct (Hm _ Hl) as [Ha Hb].
  split; [exact Ha|]. intros r Hr. rewrite holds_iff by auto. unfold node_rank. split.
  - intros [_ H]. rewrite H. symmetry. apply (Hi r). auto.
  - intros ->. split; auto.
Qed.

Lemma holds_is_site : forall lat r c, valid_lattice lat -> is_rank lat r -> holds lat r c ->
  is_site (l_size lat) c.
Proof. intros. apply holds_iff in H1; tauto. Qed.

(** ** Site index inside one box *)

Section Box.
  Variables (mn sz : list Z).
  Hypothesis Hlen : length mn = length sz.
  Hypothesis Hsz : Forall (fun s => 0 <= s) sz.

  Let ni := count_sites mn sz.
  Let B := box_sites mn sz.
  Let Ev := filter even_site B.
  Let Od := filter odd_site B.

  Lemma box_index_split :
    map (site_index ni) Ev = zrange 0 (Z.to_nat (n_even ni)) /\
    map (site_index ni) Od = zrange (n_even ni) (Z.to_nat (n_odd ni)).
  Proof.
    destruct (count_sites_spec mn sz Hlen Hsz) as (He & Ho & Hm & Hs).
    fold ni in He, Ho, Hm, Hs. fold B in He, Ho. fold Ev in He. fold Od in Ho.
    destruct (box_alternation mn sz Hlen Hsz) as [Hap _].
    assert (Hb := box_logical_index mn sz Hlen Hsz).
    assert (Hl := box_sites_length mn sz Hlen Hsz).
    rewrite <- Hl, Nat2Z.id in Hb. change 0 with (2 * 0) in Hb.
    destruct (halve_filter _ _ _ _ _ Hap Hb) as [E1 E2].
    fold B in E1, E2. fold Ev in E1.
    change (filter (fun x => negb (even_site x)) B) with Od in E2.
    assert (Hi : forall c, get_logical_index ni c = logical_index_acc 1 mn sz c).
    { intros. unfold get_logical_index. rewrite Hm, Hs. auto. }
    split.
    - rewrite He, Nat2Z.id, <- E1. apply map_ext_In. intros c Hc. unfold Ev in Hc.
      apply filter_In in Hc. destruct Hc as [_ Hc]. unfold site_index. rewrite Hc, Hi. auto.
    - rewrite Ho, Nat2Z.id.
      replace (zrange (n_even ni) (length Od)) with (map (fun x => n_even ni + x) (zrange 0 (length Od)))
        by (rewrite zrange_map_add; f_equal; lia).
      rewrite <- E2, map_map. apply map_ext_In. intros c Hc. unfold Od in Hc.
      apply filter_In in Hc. destruct Hc as [_ Hc]. unfold odd_site in Hc.
      unfold site_index. rewrite Hi. destruct (even_site c); [discriminate|]. lia.
  Qed.

  Lemma box_counts_nonneg : 0 <= n_even ni /\ 0 <= n_odd ni.
  Proof. destruct (count_sites_spec mn sz Hlen Hsz) as (He & Ho & _). fold ni in He, Ho. lia. Qed.

  Lemma box_index_all : map (site_index ni) (Ev ++ Od) = zrange 0 (Z.to_nat (volume ni)).
  Proof.
    destruct box_index_split as [E1 E2]. rewrite map_app, E1, E2. unfold volume.
    assert (Hn := box_counts_nonneg).
    rewrite Z2Nat.inj_add, zrange_app by lia. do 2 f_equal. lia.
  Qed.

  Lemma box_perm : Permutation (Ev ++ Od) B.
  Proof.
    unfold Ev, Od. clear. induction B as [|c l IH]; simpl; auto.
    unfold odd_site at 1. destruct (even_site c); simpl.
    - constructor. auto.
    - apply Permutation_sym. apply Permutation_cons_app. apply Permutation_sym. auto.
  Qed.

  Lemma stored_In : forall c, In c (Ev ++ Od) <-> in_box mn sz c = true.
  Proof.
    intros. rewrite <- box_sites_In by auto. fold B. split; apply Permutation_in;
      [apply box_perm|apply Permutation_sym; apply box_perm].
  Qed.

  Lemma box_index_inj : forall c c', In c (Ev ++ Od) -> In c' (Ev ++ Od) ->
    site_index ni c = site_index ni c' -> c = c'.
  Proof.
    intros. apply (NoDup_map_eq _ _ (site_index ni) (Ev ++ Od)); auto.
    rewrite box_index_all. apply zrange_NoDup.
  Qed.

  Lemma box_volume : volume ni = zprod sz.
  Proof.
    destruct (count_sites_spec mn sz Hlen Hsz) as (He & Ho & _).
    assert (Hl := box_sites_length mn sz Hlen Hsz).
    assert (Hp := filter_partition_length _ even_site (box_sites mn sz)).
    change (filter (fun x => negb (even_site x)) (box_sites mn sz))
      with (filter odd_site (box_sites mn sz)) in Hp.
    unfold volume. unfold ni in *. lia.
  Qed.

  Lemma fill_fold : forall k l arr,
    fill_coordinates ni k l arr =
    fold_left (fun a c => zupd a (site_index ni c) c) (iter_advance mn sz k l) arr.
  Proof.
    destruct (count_sites_spec mn sz Hlen Hsz) as (_ & _ & Hm & Hs). fold ni in Hm, Hs.
    induction k; intros; cbn [fill_coordinates iter_advance fold_left]; auto.
    rewrite Hm, Hs, IHk. auto.
  Qed.

  Lemma fold_upd_other : forall (f : list Z -> Z) l arr j, ~ In j (map f l) ->
    fold_left (fun a c => zupd a (f c) c) l arr j = arr j.
  Proof.
    induction l; simpl; intros; auto. rewrite IHl by tauto. apply zupd_other. intuition.
  Qed.

  Lemma fold_upd_in : forall (f : list Z -> Z) l arr c, NoDup (map f l) -> In c l ->
    fold_left (fun a c => zupd a (f c) c) l arr (f c) = c.
  Proof.
    induction l; simpl; intros; [tauto|]. inversion H; subst. destruct H0 as [->|H0].
    - rewrite fold_upd_other by auto. apply zupd_same.
    - apply IHl; auto.
  Qed.

  Lemma coordinates_index : forall c, In c (Ev ++ Od) -> coordinates ni (site_index ni c) = c.
  Proof.
    intros c Hc. unfold coordinates.
    destruct (count_sites_spec mn sz Hlen Hsz) as (_ & _ & Hm & _). fold ni in Hm. rewrite Hm.
    rewrite fill_fold, box_volume, iter_advance_box by auto. fold B.
    apply fold_upd_in.
    - apply (Permutation_NoDup (l := map (site_index ni) (Ev ++ Od))).
      + apply Permutation_map. apply box_perm.
      + rewrite box_index_all. apply zrange_NoDup.
    - eapply Permutation_in; [apply box_perm|auto].
  Qed.

  Lemma coordinates_all : map (coordinates ni) (zrange 0 (Z.to_nat (volume ni))) = Ev ++ Od.
  Proof.
    rewrite <- box_index_all, map_map.
    rewrite map_ext_In with (g := fun c => c); [apply map_id|]. apply coordinates_index.
  Qed.

  Lemma coordinates_even : map (coordinates ni) (zrange 0 (Z.to_nat (n_even ni))) = Ev.
  Proof.
    destruct box_index_split as [E1 _]. rewrite <- E1, map_map.
    rewrite map_ext_In with (g := fun c => c); [apply map_id|].
    intros. apply coordinates_index. apply in_or_app. auto.
  Qed.

  Lemma coordinates_odd : map (coordinates ni) (zrange (n_even ni) (Z.to_nat (n_odd ni))) = Od.
  Proof.
    destruct box_index_split as [_ E1]. rewrite <- E1, map_map.
    rewrite map_ext_In with (g := fun c => c); [apply map_id|].
    intros. apply coordinates_index. apply in_or_app. auto.
  Qed.

  Lemma site_index_coordinates : forall i, 0 <= i < volume ni ->
    In (coordinates ni i) (Ev ++ Od) /\ site_index ni (coordinates ni i) = i.
  Proof.
    intros i Hi. assert (In i (map (site_index ni) (Ev ++ Od))).
    { rewrite box_index_all. apply zrange_In. lia. }
    apply in_map_iff in H. destruct H as (c & <- & Hc). rewrite coordinates_index by auto. auto.
  Qed.
End Box.

(** ** Instances for the ranks of a valid lattice *)

Lemma rank_box : forall lat r, valid_lattice lat -> is_rank lat r ->
  exists mn sz, nodeinfo lat r = count_sites mn sz /\ length mn = length sz /\
    Forall (fun s => 0 <= s) sz /\ mn = n_min (nodeinfo lat r) /\ sz = n_siz (nodeinfo lat r).
Proof.
  intros lat r Hv Hr. assert (Hg := valid_grid _ Hv). destruct Hv as (Hlen & _ & _ & _ & Hi).
  exists (node_min (l_size lat) (n_divisions lat) (inverse_remap lat r)),
    (node_size (l_size lat) (n_divisions lat) (inverse_remap lat r)).
  rewrite nodeinfo_min, nodeinfo_siz. repeat split; auto.
  - rewrite node_min_length, node_size_length; auto.
  - apply node_size_nonneg; auto. apply Hi. auto.
Qed.

Definition stored_sites (lat : lattice) (r : Z) : list (list Z) :=
  let B := box_sites (n_min (nodeinfo lat r)) (n_siz (nodeinfo lat r)) in
  filter even_site B ++ filter odd_site B.

Lemma stored_sites_In : forall lat r c, valid_lattice lat -> is_rank lat r ->
  (In c (stored_sites lat r) <-> holds lat r c).
Proof.
  intros lat r c Hv Hr. destruct (rank_box _ _ Hv Hr) as (mn & sz & E & Hl & Hs & -> & ->).
  unfold stored_sites, holds. rewrite stored_In by auto. symmetry. apply in_region_box.
Qed.

Lemma site_even_spec : forall c, site_even c <-> even_site c = true.
Proof.
  intros. rewrite even_site_spec, even_mod2. unfold site_even. lia.
Qed.

(** C01 *)
Lemma site_index_bijection : forall lat r, valid_lattice lat -> is_rank lat r ->
  let ni := nodeinfo lat r in
  (forall c, holds lat r c -> 0 <= site_index ni c < volume ni) /\
  (forall c c', holds lat r c -> holds lat r c' -> site_index ni c = site_index ni c' -> c = c') /\
  (forall i, 0 <= i < volume ni -> exists c, holds lat r c /\ site_index ni c = i).
Proof.
  intros lat r Hv Hr ni. assert (HI := fun c => stored_sites_In lat r c Hv Hr).
  destruct (rank_box _ _ Hv Hr) as (mn & sz & E & Hl & Hs & Emn & Esz).
  unfold stored_sites in HI. rewrite <- Emn, <- Esz in HI. subst ni. rewrite E.
  repeat split.
  - apply HI in H. assert (Hin : In (site_index (count_sites mn sz) c)
      (map (site_index (count_sites mn sz)) (filter even_site (box_sites mn sz) ++ filter odd_site (box_sites mn sz))))
      by (apply in_map; auto).
    rewrite box_index_all in Hin by auto. apply zrange_In in Hin. lia.
  - apply HI in H. assert (Hin : In (site_index (count_sites mn sz) c)
      (map (site_index (count_sites mn sz)) (filter even_site (box_sites mn sz) ++ filter odd_site (box_sites mn sz))))
      by (apply in_map; auto).
    rewrite box_index_all in Hin by auto. apply zrange_In in Hin. lia.
  - intros c c' H1 H2. apply HI in H1, H2. apply (box_index_inj mn sz); auto.
  - intros i Hi. destruct (site_index_coordinates mn sz Hl Hs i Hi) as [H1 H2].
    exists (coordinates (count_sites mn sz) i). split; auto. apply HI. auto.
Qed.

Lemma site_index_parity_split : forall lat r, valid_lattice lat -> is_rank lat r ->
  let ni := nodeinfo lat r in
  forall c, holds lat r c -> (site_even c <-> site_index ni c < n_even ni).
Proof.
  intros lat r Hv Hr ni c Hc. assert (HI := fun c => stored_sites_In lat r c Hv Hr).
  destruct (rank_box _ _ Hv Hr) as (mn & sz & E & Hl & Hs & Emn & Esz).
  unfold stored_sites in HI. rewrite <- Emn, <- Esz in HI. subst ni. rewrite E.
  apply HI in Hc. destruct (box_index_split mn sz Hl Hs) as [E1 E2].
  assert (Hn := box_counts_nonneg mn sz Hl Hs).
  rewrite site_even_spec. apply in_app_or in Hc. destruct Hc as [Hc|Hc].
  - assert (Hi : In (site_index (count_sites mn sz) c) (zrange 0 (Z.to_nat (n_even (count_sites mn sz)))))
      by (rewrite <- E1; apply in_map; auto).
    apply zrange_In in Hi. apply filter_In in Hc. destruct Hc. rewrite H0. split; intros; auto; lia.
  - assert (Hi : In (site_index (count_sites mn sz) c)
       (zrange (n_even (count_sites mn sz)) (Z.to_nat (n_odd (count_sites mn sz)))))
      by (rewrite <- E2; apply in_map; auto).
    apply zrange_In in Hi. apply filter_In in Hc. destruct Hc. unfold odd_site in H0.
    destruct (even_site c); [discriminate|]. split; intros; [discriminate|lia].
Qed.

Lemma loop_visits : forall lat r p, valid_lattice lat -> is_rank lat r ->
  let ni := nodeinfo lat r in
  let visited := map (coordinates ni) (loop_indices ni p) in
  NoDup visited /\ (forall c, In c visited <-> holds lat r c /\ has_parity p c).
Proof.
  intros lat r p Hv Hr ni visited. assert (HI := fun c => stored_sites_In lat r c Hv Hr).
  destruct (rank_box _ _ Hv Hr) as (mn & sz & E & Hl & Hs & Emn & Esz).
  unfold stored_sites in HI. rewrite <- Emn, <- Esz in HI. subst visited ni. rewrite E.
  assert (Hn := box_counts_nonneg mn sz Hl Hs).
  assert (Hnd : NoDup (filter even_site (box_sites mn sz) ++ filter odd_site (box_sites mn sz))).
  { eapply Permutation_NoDup; [apply Permutation_sym; apply box_perm|apply box_sites_NoDup]. }
  unfold loop_indices. destruct p; cbn [loop_begin loop_end has_parity].
  - rewrite Z.sub_0_r, coordinates_even by auto. split.
    + apply NoDup_filter, box_sites_NoDup.
    + intros c. rewrite <- HI, site_even_spec, in_app_iff, !filter_In. unfold odd_site.
      destruct (even_site c); intuition; discriminate.
  - replace (volume (count_sites mn sz) - n_even (count_sites mn sz)) with (n_odd (count_sites mn sz))
      by (unfold volume; lia).
    rewrite coordinates_odd by auto. split.
    + apply NoDup_filter, box_sites_NoDup.
    + intros c. rewrite <- HI, site_even_spec, in_app_iff, !filter_In. unfold odd_site.
      destruct (even_site c); intuition; discriminate.
  - rewrite Z.sub_0_r, coordinates_all by auto. split; auto. intros. rewrite <- HI. tauto.
Qed.

Lemma coordinates_inverse : forall lat r, valid_lattice lat -> is_rank lat r ->
  let ni := nodeinfo lat r in
  (forall c, holds lat r c -> coordinates ni (site_index ni c) = c) /\
  (forall i, 0 <= i < volume ni ->
     holds lat r (coordinates ni i) /\ site_index ni (coordinates ni i) = i).
Proof.
  intros lat r Hv Hr ni. assert (HI := fun c => stored_sites_In lat r c Hv Hr).
  destruct (rank_box _ _ Hv Hr) as (mn & sz & E & Hl & Hs & Emn & Esz).
  unfold stored_sites in HI. rewrite <- Emn, <- Esz in HI. subst ni. rewrite E. split.
  - intros c Hc. apply HI in Hc. apply coordinates_index; auto.
  - intros i Hi. rewrite <- HI. apply site_index_coordinates; auto.
Qed.

Lemma rank_volume : forall lat r, valid_lattice lat -> is_rank lat r ->
  volume (nodeinfo lat r) = zprod (n_siz (nodeinfo lat r)).
Proof.
  intros lat r Hv Hr. destruct (rank_box _ _ Hv Hr) as (mn & sz & E & Hl & Hs & Emn & Esz).
  rewrite <- Esz, E. apply box_volume; auto.
Qed.
