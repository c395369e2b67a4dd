(** The vectorised site index of a rank: vector and lane of a site. *)
From Verif Require Import Common LayoutModel LayoutSpec LayoutProofs1 LayoutProofs2 LayoutProofs4
  VlayoutModel VlayoutSpec VlayoutProofs1.

Lemma nth_cquot : forall a b j, length a = length b -> (j < length a)%nat ->
  nth j (cquot a b) 0 = nth j a 0 / nth j b 0.
Proof. induction a; destruct b; simpl; intros; try lia. destruct j; auto. apply IHa; lia. Qed.

Lemma cquot_length : forall a b, length a = length b -> length (cquot a b) = length a.
Proof. induction a; destruct b; simpl; intros; try lia. rewrite IHa; lia. Qed.

Lemma vgrid_of : forall dv sz, length sz = length dv -> Forall (fun x => 0 < x) dv ->
  (forall j, (j < length dv)%nat -> exists s, 0 < s /\ nth j sz 0 = nth j dv 0 * s /\ (1 < nth j dv 0 -> s mod 2 = 0)) ->
  vgrid dv (cquot sz dv) /\ cmul dv (cquot sz dv) = sz.
Proof.
  intros dv sz. revert sz. induction dv as [|n dv IH]; intros sz Hl Hp H; destruct sz as [|z sz]; try discriminate.
  - split; [constructor|auto].
  - inversion Hp; subst. destruct (IH sz ltac:(simpl in Hl; lia) H3) as [E1 E2].
    + intros j Hj. apply (H (S j)). simpl. lia.
    + destruct (H 0%nat ltac:(simpl; lia)) as (s & Hs & E & Hs2). cbn [nth] in E, Hs2. subst z.
      cbn [cquot cmul]. assert (Eq : n * s / n = s) by (rewrite Z.mul_comm; apply Z.div_mul; lia).
      rewrite Eq, E2. split; auto. constructor; auto.
Qed.

Lemma Forall2_of_nth : forall l q : list Z, length q = length l ->
  (forall j, (j < length l)%nat -> 0 <= nth j q 0 < nth j l 0) -> Forall2 (fun n x => 0 <= x < n) l q.
Proof.
  induction l; intros q Hq Hn; destruct q; try discriminate; constructor.
  - apply (Hn 0%nat). cbn [length]. lia.
  - apply IHl; [simpl in Hq; lia|]. intros j Hj. apply (Hn (S j)). cbn [length]. lia.
Qed.

Section Ranks.
  Variable v : vlattice.
  Hypothesis Hvv : valid_vlattice v.

  Let lat := vl_lat v.
  Let n := length (l_size lat).
  Let dv := vl_div v.
  Let m := vl_merged v.
  Let V := number_of_subnodes v.
  Let b := nth m dv 0.

  Lemma vv_valid : valid_lattice lat. Proof. apply Hvv. Qed.
  Lemma vv_len : length dv = n. Proof. apply Hvv. Qed.
  Lemma vv_pos : Forall (fun x => 0 < x) dv. Proof. apply Hvv. Qed.
  Lemma vv_m : (m < n)%nat. Proof. apply Hvv. Qed.
  Lemma vv_b : b mod 2 = 0. Proof. apply Hvv. Qed.

  Lemma vv_b_pos : 0 < b.
  Proof. apply (Forall_nth (fun x => 0 < x) dv); [apply vv_pos|rewrite vv_len; apply vv_m]. Qed.

  Definition mnr (r : Z) := n_min (nodeinfo lat r).
  Definition szr (r : Z) := n_siz (nodeinfo lat r).
  Definition ssr (r : Z) := cquot (szr r) dv.

  Lemma rank_lens : forall r, length (mnr r) = n /\ length (szr r) = n.
  Proof.
    intros. unfold mnr, szr. rewrite nodeinfo_min, nodeinfo_siz.
    rewrite node_min_length, node_size_length by (apply valid_grid; apply vv_valid). auto.
  Qed.

  Lemma ssr_len : forall r, length (ssr r) = n.
  Proof. intros r. destruct (rank_lens r). unfold ssr. rewrite cquot_length; rewrite ?vv_len; lia. Qed.

  Lemma rank_grid : forall r, is_rank lat r -> vgrid dv (ssr r) /\ cmul dv (ssr r) = szr r.
  Proof.
    intros r Hr. destruct (rank_lens r). apply vgrid_of; [rewrite vv_len; auto|apply vv_pos|].
    intros j Hj. rewrite vv_len in Hj. destruct Hvv as (_ & _ & _ & _ & _ & _ & Hx & _). apply Hx; auto.
  Qed.

  Lemma ssr_nth : forall r j, is_rank lat r -> (j < n)%nat ->
    nth j (ssr r) 0 = nth j (szr r) 0 / nth j dv 0 /\ 0 < nth j (ssr r) 0 /\
    nth j (szr r) 0 = nth j dv 0 * nth j (ssr r) 0 /\ (1 < nth j dv 0 -> nth j (ssr r) 0 mod 2 = 0) /\
    0 < nth j dv 0.
  Proof.
    intros r j Hr Hj. destruct (rank_lens r). unfold ssr. rewrite nth_cquot by (rewrite ?vv_len; lia).
    assert (Hd : 0 < nth j dv 0) by (apply (Forall_nth (fun x => 0 < x) dv); [apply vv_pos|rewrite vv_len; auto]).
    destruct Hvv as (_ & _ & _ & _ & _ & _ & Hx & _). destruct (Hx r j Hr Hj) as (s & Hs & E & Hs2).
    fold lat in E. fold (szr r) in E. fold dv in E, Hs2. rewrite E, Z.mul_comm, Z.div_mul by lia.
    repeat split; auto; lia.
  Qed.

  Lemma holds_vin : forall r c, is_rank lat r -> (holds lat r c <-> vin dv (ssr r) (mnr r) c).
  Proof.
    intros r c Hr. unfold vin. rewrite (proj2 (rank_grid r Hr)). unfold holds. apply in_region_box.
  Qed.

  Definition dig (r : Z) (c : list Z) := qd (ssr r) (mnr r) c.
  Definition bas (r : Z) (c : list Z) := base (ssr r) (mnr r) c.
  Definition subbox (r : Z) := count_sites (mnr r) (ssr r).
  Definition kk (r : Z) (c : list Z) : Z := site_index (subbox r) (bas r c).

  Lemma V_prod : V = rprod m 0 dv * b.
  Proof.
    unfold V, number_of_subnodes, b. fold dv. rewrite (rprod_zprod m dv 0).
    - rewrite Nat.sub_0_r. auto.
    - rewrite vv_len. assert (H := vv_m). lia.
  Qed.

  Lemma V_pos : 0 < V.
  Proof. unfold V, number_of_subnodes. apply zprod_pos. apply vv_pos. Qed.

  Lemma sub_even : forall r, is_rank lat r -> zprod (ssr r) mod 2 = 0.
  Proof.
    intros r Hr. assert (Hm := vv_m). destruct (ssr_nth r m Hr Hm) as (_ & _ & _ & He & Hb).
    fold b in He, Hb. assert (Hb2 := vv_b). specialize (He ltac:(lia)).
    assert (Hl := ssr_len r). rewrite <- Hl in Hm. clear - Hm He.
    revert Hm He. generalize (ssr r) as l. intros l. generalize m as k. induction l; intros k; cbn [length]; [lia|].
    destruct k; cbn [nth]; intros Hm He; rewrite zprod_cons.
    - rewrite Z.mul_mod, He by lia. auto.
    - rewrite Z.mul_mod, (IHl k) by (auto; lia). rewrite Z.mul_0_r. auto.
  Qed.

  Lemma sub_even_count : forall r, is_rank lat r ->
    n_even (nodeinfo lat r) / V = n_even (subbox r) /\ n_even (nodeinfo lat r) = V * n_even (subbox r) /\
    volume (nodeinfo lat r) = V * volume (subbox r) /\
    n_even (subbox r) = n_odd (subbox r) /\ volume (subbox r) = zprod (ssr r).
  Proof.
    intros r Hr. assert (He := sub_even r Hr). destruct (rank_grid r Hr) as [Hg Hc].
    destruct (rank_box lat r vv_valid Hr) as (mn & sz & E & Hl & Hs & E1 & E2).
    fold (szr r) in E2. rewrite <- Hc in E2. subst sz.
    assert (Hz := zprod_cmul _ _ Hg). fold V in Hz. change (zprod dv) with V in Hz.
    assert (HV := V_pos).
    assert (Ea : (V * zprod (ssr r)) mod 2 = 0) by (rewrite Z.mul_mod, He, Z.mul_0_r by lia; auto).
    rewrite E. unfold subbox, count_sites. rewrite Hz, Ea, He. cbn [Z.eqb n_even].
    unfold volume. cbn [n_even n_odd].
    assert (Eh : V * zprod (ssr r) / 2 = V * (zprod (ssr r) / 2)).
    { symmetry. apply Z.div_unique with (r := 0); [lia|]. assert (Hd := Z.div_mod (zprod (ssr r)) 2 ltac:(lia)). nia. }
    rewrite Eh. rewrite (Z.mul_comm V), Z.div_mul by lia.
    assert (Hd := Z.div_mod (zprod (ssr r)) 2 ltac:(lia)). repeat split; try lia; nia.
  Qed.

  Lemma sub_lens : forall r, is_rank lat r -> length (mnr r) = length (ssr r) /\
    Forall (fun s => 0 <= s) (ssr r).
  Proof.
    intros r Hr. destruct (rank_lens r). rewrite ssr_len. split; auto.
    apply (vgrid_pos dv). apply rank_grid. auto.
  Qed.

  (** The index as lane and vector of the 32-bit layout. *)
  Lemma index_split : forall r c, is_rank lat r -> holds lat r c ->
    vsite_index v (nodeinfo lat r) c =
    lanef m 0 (swz b (nth m (dig r c) 0)) dv (dig r c) + V * kk r c.
  Proof.
    intros r c Hr Hc. destruct (rank_grid r Hr) as [Hg Hm]. destruct (sub_lens r Hr) as [Hl Hs].
    apply holds_vin in Hc; auto.
    unfold vsite_index, subsize. fold lat dv m V. fold (mnr r) (szr r). fold (ssr r).
    rewrite (subl_loop_lanef m dv (ssr r) (mnr r)) by auto.
    fold (dig r c). unfold merged_digit, subsize. fold dv m. fold (mnr r) (szr r). fold (ssr r).
    assert (Em : nth m (dig r c) 0 = (nth m c 0 - nth m (mnr r) 0) / nth m (ssr r) 0).
    { unfold dig. apply (qd_nth dv); auto. rewrite ssr_len. apply vv_m. }
    rewrite <- Em. fold b. fold (swz b (nth m (dig r c) 0)).
    rewrite (inner_loop_base dv) by auto. fold (bas r c).
    destruct (sub_even_count r Hr) as (E1 & _). rewrite E1.
    unfold kk, site_index. unfold get_logical_index.
    destruct (count_sites_spec (mnr r) (ssr r) Hl Hs) as (_ & _ & M1 & M2).
    fold (subbox r) in M1, M2. rewrite M1, M2.
    assert (Ep := base_parity dv (ssr r) (mnr r) Hg Hl c Hc). fold (bas r c) in Ep. rewrite Ep. auto.
  Qed.

  Lemma kk_range : forall r c, is_rank lat r -> holds lat r c -> 0 <= kk r c < volume (subbox r).
  Proof.
    intros r c Hr Hc. destruct (sub_lens r Hr) as [Hl Hs]. destruct (rank_grid r Hr) as [Hg _].
    apply holds_vin in Hc; auto. apply (base_in dv) in Hc; auto. fold (bas r c) in Hc.
    apply stored_In in Hc; auto.
    assert (Hin : In (kk r c) (zrange 0 (Z.to_nat (volume (subbox r))))).
    { unfold kk, subbox. rewrite <- box_index_all by auto. apply in_map. auto. }
    apply zrange_In in Hin. assert (Hn := box_counts_nonneg (mnr r) (ssr r) Hl Hs).
    fold (subbox r) in Hn. unfold volume in *. lia.
  Qed.

  Lemma kk_parity : forall r c, is_rank lat r -> holds lat r c ->
    (even_site c = true <-> kk r c < n_even (subbox r)).
  Proof.
    intros r c Hr Hc. destruct (sub_lens r Hr) as [Hl Hs]. destruct (rank_grid r Hr) as [Hg _].
    apply holds_vin in Hc; auto. assert (Hb := base_in dv _ _ Hg Hl c Hc). fold (bas r c) in Hb.
    assert (Ep := base_parity dv (ssr r) (mnr r) Hg Hl c Hc). fold (bas r c) in Ep. rewrite <- Ep.
    apply stored_In in Hb; auto. destruct (box_index_split (mnr r) (ssr r) Hl Hs) as [E1 E2].
    assert (Hn := box_counts_nonneg (mnr r) (ssr r) Hl Hs).
    apply in_app_or in Hb. destruct Hb as [Hb|Hb].
    - assert (Hi := in_map (site_index (count_sites (mnr r) (ssr r))) _ _ Hb). rewrite E1 in Hi.
      apply zrange_In in Hi. apply filter_In in Hb. destruct Hb as [_ ->]. unfold kk, subbox.
      split; auto. lia.
    - assert (Hi := in_map (site_index (count_sites (mnr r) (ssr r))) _ _ Hb). rewrite E2 in Hi.
      apply zrange_In in Hi. apply filter_In in Hb. destruct Hb as [_ Hb]. unfold odd_site in Hb.
      unfold kk, subbox. destruct (even_site (bas r c)); [discriminate|]. split; [discriminate|lia].
  Qed.

  Lemma kk_inj : forall r c c', is_rank lat r -> holds lat r c -> holds lat r c' ->
    (kk r c = kk r c' <-> bas r c = bas r c').
  Proof.
    intros r c c' Hr Hc Hc'. split; [|intros E; unfold kk; rewrite E; auto].
    destruct (sub_lens r Hr) as [Hl Hs]. destruct (rank_grid r Hr) as [Hg _].
    apply holds_vin in Hc, Hc'; auto. apply (base_in dv) in Hc, Hc'; auto.
    apply stored_In in Hc, Hc'; auto. apply (box_index_inj (mnr r) (ssr r)); auto.
  Qed.

  Lemma dig_range : forall r c, is_rank lat r -> holds lat r c ->
    Forall2 (fun n x => 0 <= x < n) dv (dig r c).
  Proof.
    intros r c Hr Hc. destruct (sub_lens r Hr) as [Hl Hs]. destruct (rank_grid r Hr) as [Hg _].
    apply holds_vin in Hc; auto. apply qd_range; auto.
  Qed.

  Lemma dig_nth : forall r c j, is_rank lat r -> holds lat r c -> (j < n)%nat ->
    nth j (dig r c) 0 = (nth j c 0 - nth j (mnr r) 0) / nth j (ssr r) 0 /\
    0 <= nth j (dig r c) 0 < nth j dv 0.
  Proof.
    intros r c j Hr Hc Hj. assert (Hd := dig_range r c Hr Hc).
    destruct (sub_lens r Hr) as [Hl Hs]. destruct (rank_grid r Hr) as [Hg _].
    apply holds_vin in Hc; auto. split.
    - apply (qd_nth dv); auto. rewrite ssr_len. auto.
    - rewrite <- vv_len in Hj. clear - Hd Hj. revert j Hj. induction Hd; cbn [length]; intros j Hj; [lia|].
      destruct j; cbn [nth]; auto. apply IHHd. lia.
  Qed.

  Lemma dig_len : forall r c, is_rank lat r -> holds lat r c -> length (dig r c) = n.
  Proof.
    intros r c Hr Hc. destruct (sub_lens r Hr) as [Hl Hs]. destruct (rank_grid r Hr) as [Hg _].
    apply holds_vin in Hc; auto. unfold dig. rewrite (qd_length dv); auto. apply ssr_len.
  Qed.

  Lemma bas_nth : forall r c j, is_rank lat r -> holds lat r c -> (j < n)%nat ->
    nth j (bas r c) 0 = nth j (mnr r) 0 + (nth j c 0 - nth j (mnr r) 0) mod nth j (ssr r) 0.
  Proof.
    intros r c j Hr Hc Hj. destruct (sub_lens r Hr) as [Hl Hs]. destruct (rank_grid r Hr) as [Hg _].
    apply holds_vin in Hc; auto. apply (base_nth dv); auto. rewrite ssr_len. auto.
  Qed.

  Lemma bas_len : forall r c, is_rank lat r -> holds lat r c -> length (bas r c) = n.
  Proof.
    intros r c Hr Hc. destruct (sub_lens r Hr) as [Hl Hs]. destruct (rank_grid r Hr) as [Hg _].
    apply holds_vin in Hc; auto. unfold bas. rewrite (base_length dv); auto. apply ssr_len.
  Qed.

  (** ** Lane and vector for both vector sizes *)

  Definition lam (dbl : bool) (q : list Z) : Z :=
    lanef m 0 (if dbl then nth m q 0 / 2 else swz b (nth m q 0)) dv q.
  Definition lane (dbl : bool) (r : Z) (c : list Z) : Z := lam dbl (dig r c).
  Definition vec (dbl : bool) (r : Z) (c : list Z) : Z :=
    if dbl then 2 * kk r c + (nth m (dig r c) 0) mod 2 else kk r c.

  Let W := vector_size v.

  Lemma W_prod : forall dbl, W dbl = (if dbl then b / 2 else b) * rprod m 0 dv /\ 0 < W dbl.
  Proof.
    intros dbl. assert (E := V_prod). assert (HV := V_pos). assert (Hb := vv_b). assert (Hb0 := vv_b_pos).
    assert (Hr := rprod_pos m dv 0 vv_pos). unfold W, vector_size. fold V.
    destruct dbl; [|split; auto; lia].
    assert (E2 : V = (b / 2 * rprod m 0 dv) * 2) by nia.
    rewrite E2, Z.div_mul by lia. split; auto. assert (0 < b / 2) by lia. nia.
  Qed.

  Lemma V_W : forall dbl : bool, V = (if dbl then 2 else 1) * W dbl.
  Proof.
    intros dbl. destruct (W_prod dbl) as [E _]. rewrite E, V_prod. assert (Hb := vv_b).
    destruct dbl; [|ring]. assert (Eb : b = 2 * (b / 2)) by lia. rewrite Eb at 1. ring.
  Qed.

  Lemma lane_range : forall dbl r c, is_rank lat r -> holds lat r c -> 0 <= lane dbl r c < W dbl.
  Proof.
    intros dbl r c Hr Hc. destruct (W_prod dbl) as [E _]. rewrite E. unfold lane, lam.
    apply lanef_range; [apply dig_range; auto|].
    destruct (dig_nth r c m Hr Hc vv_m) as [_ H]. fold b in H. assert (Hb := vv_b).
    destruct dbl; [lia|]. apply swz_range; auto.
  Qed.

  Lemma lanef_top : forall dv q j t t', Forall2 (fun n x => 0 <= x < n) dv q ->
    lanef m j (t + t') dv q = lanef m j t dv q + t' * rprod m j dv.
  Proof.
    intros dv0 q j t t' H. revert j. induction H; intros j; cbn [lanef rprod]; [lia|].
    rewrite IHForall2. destruct (j =? m)%nat; ring.
  Qed.

  Lemma index_vec_lane : forall dbl r c, is_rank lat r -> holds lat r c ->
    vsite_index v (nodeinfo lat r) c = vec dbl r c * W dbl + lane dbl r c.
  Proof.
    intros dbl r c Hr Hc. rewrite index_split by auto. destruct (W_prod dbl) as [E _]. rewrite E.
    unfold vec, lane, lam. rewrite V_prod. destruct dbl; [|ring].
    unfold swz. rewrite lanef_top by (apply dig_range; auto).
    assert (Hb := vv_b). assert (Eb : b = 2 * (b / 2)) by lia. rewrite Eb at 2. ring.
  Qed.

  Lemma vec_range : forall dbl r c, is_rank lat r -> holds lat r c ->
    0 <= vec dbl r c < v_sites v dbl (nodeinfo lat r).
  Proof.
    intros dbl r c Hr Hc. unfold v_sites. destruct (sub_even_count r Hr) as (_ & _ & E & _).
    rewrite E. fold W. assert (HV := V_pos). assert (Hk := kk_range r c Hr Hc).
    destruct (W_prod dbl) as [EW HW]. assert (Eq := V_prod). unfold vec.
    assert (Hb := vv_b). assert (Eb : b = 2 * (b / 2)) by lia.
    destruct dbl.
    - replace (V * volume (subbox r)) with (2 * volume (subbox r) * W true) by (rewrite (V_W true); ring).
      rewrite Z.div_mul by lia. lia.
    - replace (V * volume (subbox r)) with (volume (subbox r) * W false) by (rewrite (V_W false); ring).
      rewrite Z.div_mul by lia. lia.
  Qed.

  Lemma v_sites_eq : forall dbl r, is_rank lat r ->
    v_sites v dbl (nodeinfo lat r) * W dbl = volume (nodeinfo lat r) /\
    v_sites v dbl (nodeinfo lat r) = (if dbl then 2 else 1) * volume (subbox r) /\
    0 <= v_sites v dbl (nodeinfo lat r).
  Proof.
    intros dbl r Hr. unfold v_sites. destruct (sub_even_count r Hr) as (_ & _ & E & _ & E5).
    rewrite E. fold W. assert (HV := V_pos).
    destruct (W_prod dbl) as [EW HW]. assert (Eq := V_prod).
    assert (Hb := vv_b). assert (Eb : b = 2 * (b / 2)) by lia.
    assert (Hz : 0 <= zprod (ssr r)) by (apply zprod_nonneg; apply sub_lens; auto).
    destruct dbl.
    - replace (V * volume (subbox r)) with (2 * volume (subbox r) * W true) by (rewrite (V_W true); ring).
      rewrite Z.div_mul by lia. repeat split; lia.
    - replace (V * volume (subbox r)) with (volume (subbox r) * W false) by (rewrite (V_W false); ring).
      rewrite Z.div_mul by lia. repeat split; lia.
  Qed.

  Lemma index_div : forall dbl r c, is_rank lat r -> holds lat r c ->
    vsite_index v (nodeinfo lat r) c / W dbl = vec dbl r c /\
    vsite_index v (nodeinfo lat r) c mod W dbl = lane dbl r c.
  Proof.
    intros dbl r c Hr Hc. rewrite (index_vec_lane dbl) by auto.
    assert (Hl := lane_range dbl r c Hr Hc). rewrite Z.add_comm. split.
    - rewrite Z.div_add by lia. rewrite Z.div_small; lia.
    - rewrite Z.mod_add by lia. apply Z.mod_small; auto.
  Qed.

  Lemma index_range : forall r c, is_rank lat r -> holds lat r c ->
    0 <= vsite_index v (nodeinfo lat r) c < volume (nodeinfo lat r).
  Proof.
    intros r c Hr Hc. rewrite (index_vec_lane false) by auto.
    assert (Hl := lane_range false r c Hr Hc). assert (Hk := vec_range false r c Hr Hc).
    destruct (v_sites_eq false r Hr) as [E _]. nia.
  Qed.

  Lemma vec_parity : forall dbl r c, is_rank lat r -> holds lat r c ->
    (even_site c = true <-> vec dbl r c < v_sites v dbl (nodeinfo lat r) / 2).
  Proof.
    intros dbl r c Hr Hc. rewrite (kk_parity r c) by auto.
    destruct (v_sites_eq dbl r Hr) as (_ & E & _). rewrite E.
    destruct (sub_even_count r Hr) as (_ & _ & _ & Ee & _). unfold volume. rewrite <- Ee.
    unfold vec. destruct dbl.
    - replace (2 * (n_even (subbox r) + n_even (subbox r))) with (2 * n_even (subbox r) * 2) by ring.
      rewrite Z.div_mul by lia. lia.
    - replace (1 * (n_even (subbox r) + n_even (subbox r))) with (n_even (subbox r) * 2) by ring.
      rewrite Z.div_mul by lia. lia.
  Qed.

  Lemma index_parity : forall r c, is_rank lat r -> holds lat r c ->
    (even_site c = true <-> vsite_index v (nodeinfo lat r) c < n_even (nodeinfo lat r)).
  Proof.
    intros r c Hr Hc. rewrite (kk_parity r c) by auto. rewrite (index_vec_lane false) by auto.
    destruct (sub_even_count r Hr) as (_ & E & _). rewrite E. assert (Hl := lane_range false r c Hr Hc).
    unfold vec. change (W false) with V in *. nia.
  Qed.

  (** ** Subnodes and places, in the words of the specification *)

  Lemma sub_extent_eq : forall dbl r j, is_rank lat r -> (j < n)%nat ->
    sub_extent v dbl r j = nth j (ssr r) 0 * (if dbl && (j =? m)%nat then 2 else 1).
  Proof.
    intros dbl r j Hr Hj. unfold sub_extent. fold lat dv m. fold (szr r).
    destruct (ssr_nth r j Hr Hj) as (E & _). rewrite E. auto.
  Qed.

  Lemma subnode_dig : forall dbl r c j, is_rank lat r -> holds lat r c -> (j < n)%nat ->
    subnode_of v dbl r c j = if dbl && (j =? m)%nat then nth j (dig r c) 0 / 2 else nth j (dig r c) 0.
  Proof.
    intros dbl r c j Hr Hc Hj. unfold subnode_of. rewrite sub_extent_eq by auto.
    fold lat. fold (mnr r). destruct (dig_nth r c j Hr Hc Hj) as [E _].
    destruct (ssr_nth r j Hr Hj) as (_ & Hs & _). rewrite E.
    destruct (dbl && (j =? m)%nat); [|rewrite Z.mul_1_r; auto]. rewrite Z.div_div by lia. auto.
  Qed.

  Lemma place_bas : forall dbl r c j, is_rank lat r -> holds lat r c -> (j < n)%nat ->
    place_in_subnode v dbl r c j = nth j (bas r c) 0 - nth j (mnr r) 0 +
      (if dbl && (j =? m)%nat then nth j (ssr r) 0 * (nth j (dig r c) 0 mod 2) else 0).
  Proof.
    intros dbl r c j Hr Hc Hj. unfold place_in_subnode. rewrite sub_extent_eq by auto.
    fold lat. fold (mnr r). destruct (dig_nth r c j Hr Hc Hj) as [E _]. rewrite bas_nth, E by auto.
    destruct (ssr_nth r j Hr Hj) as (_ & Hs & _).
    destruct (dbl && (j =? m)%nat); [|rewrite Z.mul_1_r; lia].
    rewrite Z.rem_mul_r by lia. lia.
  Qed.

  Lemma lane_subnode : forall dbl r c r' c', is_rank lat r -> holds lat r c ->
    is_rank lat r' -> holds lat r' c' ->
    (lane dbl r c = lane dbl r' c' <->
     forall j, (j < n)%nat -> subnode_of v dbl r c j = subnode_of v dbl r' c' j).
  Proof.
    intros dbl r c r' c' Hr Hc Hr' Hc'. assert (Hm := vv_m).
    destruct (dig_nth r c m Hr Hc Hm) as [_ B1]. destruct (dig_nth r' c' m Hr' Hc' Hm) as [_ B2].
    fold b in B1, B2. unfold lane, lam. split.
    - intros E. apply lanef_inj in E; try (apply dig_range; auto). destruct E as [E1 E2].
      intros j Hj. rewrite !subnode_dig by auto.
      destruct (Nat.eqb_spec j m) as [->|Hjm].
      + destruct dbl; cbn [andb]; auto. apply swz_inj in E1; auto. apply vv_b.
      + rewrite andb_false_r. apply E2; [rewrite vv_len; auto|lia].
    - intros E. assert (Et : (if dbl then nth m (dig r c) 0 / 2 else swz b (nth m (dig r c) 0)) =
        if dbl then nth m (dig r' c') 0 / 2 else swz b (nth m (dig r' c') 0)).
      { specialize (E m Hm). rewrite !subnode_dig, Nat.eqb_refl in E by auto. destruct dbl; cbn [andb] in E; congruence. }
      rewrite Et. apply lanef_ext; [rewrite !dig_len; auto|]. rewrite dig_len by auto. intros k Hk Hkm.
      specialize (E k Hk). rewrite !subnode_dig in E by auto.
      destruct (Nat.eqb_spec k m); [lia|]. rewrite andb_false_r in E. auto.
  Qed.

  Lemma vec_place : forall dbl r c c', is_rank lat r -> holds lat r c -> holds lat r c' ->
    (vec dbl r c = vec dbl r c' <-> same_place v dbl r c c').
  Proof.
    intros dbl r c c' Hr Hc Hc'. unfold same_place. fold lat n. assert (Hm := vv_m).
    assert (Hp : forall x, holds lat r x -> forall j, (j < n)%nat ->
      0 <= nth j (bas r x) 0 - nth j (mnr r) 0 < nth j (ssr r) 0).
    { intros x Hx j Hj. rewrite bas_nth by auto. destruct (ssr_nth r j Hr Hj) as (_ & Hs & _).
      assert (B := Z.mod_pos_bound (nth j x 0 - nth j (mnr r) 0) _ Hs). lia. }
    assert (He : vec dbl r c = vec dbl r c' <->
      kk r c = kk r c' /\ (dbl = true -> nth m (dig r c) 0 mod 2 = nth m (dig r c') 0 mod 2)).
    { unfold vec. destruct dbl; [|intuition discriminate].
      assert (B1 := Z.mod_pos_bound (nth m (dig r c) 0) 2 ltac:(lia)).
      assert (B2 := Z.mod_pos_bound (nth m (dig r c') 0) 2 ltac:(lia)).
      set (e1 := nth m (dig r c) 0 mod 2) in *. set (e2 := nth m (dig r c') 0 mod 2) in *.
      split; [intros; split; lia|]. intros [E1 E2]. specialize (E2 eq_refl). lia. }
    rewrite He, (kk_inj r c c') by auto. split.
    - intros [E1 E2] j Hj. rewrite !place_bas by auto. rewrite E1. f_equal.
      destruct dbl; auto. cbn [andb]. destruct (Nat.eqb_spec j m) as [->|]; auto. rewrite E2; auto.
    - intros E. assert (Em : nth m (bas r c) 0 = nth m (bas r c') 0 /\
        (dbl = true -> nth m (dig r c) 0 mod 2 = nth m (dig r c') 0 mod 2)).
      { specialize (E m Hm). rewrite !place_bas, Nat.eqb_refl in E by auto.
        destruct dbl; cbn [andb] in E; [|split; [lia|discriminate]].
        apply digit_inj in E; [|apply Hp; auto|apply Hp; auto]. split; [lia|tauto]. }
      split; [|tauto]. apply nth_ext with (d := 0) (d' := 0); [rewrite !bas_len; auto|].
      rewrite bas_len by auto. intros j Hj. destruct (Nat.eqb_spec j m) as [->|Hjm]; [tauto|].
      specialize (E j Hj). rewrite !place_bas in E by auto.
      destruct (Nat.eqb_spec j m); [lia|]. rewrite andb_false_r in E. lia.
  Qed.

  (** Any subnode and any place can be combined. *)
  Lemma combine : forall dbl r c1 c2, is_rank lat r -> holds lat r c1 -> holds lat r c2 ->
    exists c, holds lat r c /\ same_subnode v dbl r c c1 /\ same_place v dbl r c c2.
  Proof.
    intros dbl r c1 c2 Hr H1 H2. assert (Hm := vv_m). destruct (rank_grid r Hr) as [Hg _].
    destruct (sub_lens r Hr) as [Hl Hs].
    pose (q := if dbl then upd_at m (fun x => 2 * (x / 2) + nth m (dig r c2) 0 mod 2) (dig r c1) else dig r c1).
    assert (Hq : forall j, (j < n)%nat -> nth j q 0 =
      if dbl && (j =? m)%nat then 2 * (nth m (dig r c1) 0 / 2) + nth m (dig r c2) 0 mod 2 else nth j (dig r c1) 0).
    { intros j Hj. unfold q. destruct dbl; auto. rewrite nth_upd_at by (rewrite dig_len; auto). auto. }
    assert (Hqr : Forall2 (fun n x => 0 <= x < n) dv q).
    { assert (Hql : length q = n) by (unfold q; destruct dbl; rewrite ?upd_at_length; apply dig_len; auto).
      assert (Hb := vv_b). destruct (dig_nth r c1 m Hr H1 Hm) as [_ B1]. fold b in B1.
      assert (Hn : forall j, (j < n)%nat -> 0 <= nth j q 0 < nth j dv 0).
      { intros j Hj. rewrite Hq by auto. destruct (dig_nth r c1 j Hr H1 Hj) as [_ B].
        destruct (Nat.eqb_spec j m) as [->|]; [|rewrite andb_false_r; auto].
        destruct dbl; cbn [andb]; auto. fold b.
        assert (B2 := Z.mod_pos_bound (nth m (dig r c2) 0) 2 ltac:(lia)). lia. }
      apply Forall2_of_nth; rewrite vv_len; auto. }
    apply holds_vin in H2 as H2v; auto. apply (base_in dv) in H2v; auto. fold (bas r c2) in H2v.
    destruct (join_spec dv (ssr r) (mnr r) Hg Hl q (bas r c2) Hqr H2v) as (E1 & E2 & E3).
    exists (join (ssr r) q (bas r c2)). apply holds_vin in E1; auto.
    fold (dig r (join (ssr r) q (bas r c2))) in E2. fold (bas r (join (ssr r) q (bas r c2))) in E3.
    split; auto. split; intros j Hj; fold lat in Hj; fold n in Hj.
    - rewrite !subnode_dig by auto. rewrite E2, Hq by auto.
      destruct dbl; cbn [andb]; auto. destruct (Nat.eqb_spec j m) as [->|]; auto.
      assert (B2 := Z.mod_pos_bound (nth m (dig r c2) 0) 2 ltac:(lia)). lia.
    - rewrite !place_bas by auto. rewrite E2, E3, Hq by auto. f_equal.
      destruct dbl; cbn [andb]; auto. destruct (Nat.eqb_spec j m) as [->|]; auto. f_equal. lia.
  Qed.

  (** A site is determined by its subnode and its place. *)
  Lemma site_unique : forall dbl r c c', is_rank lat r -> holds lat r c -> holds lat r c' ->
    same_subnode v dbl r c c' -> same_place v dbl r c c' -> c = c'.
  Proof.
    intros dbl r c c' Hr Hc Hc' Hs Hp.
    destruct (holds_is_site lat r c vv_valid Hr Hc) as [L1 _].
    destruct (holds_is_site lat r c' vv_valid Hr Hc') as [L2 _].
    apply nth_ext with (d := 0) (d' := 0); [lia|]. intros j Hj. rewrite L1 in Hj. fold n in Hj.
    specialize (Hs j Hj). specialize (Hp j Hj). unfold subnode_of, place_in_subnode in *.
    assert (He : 0 < sub_extent v dbl r j).
    { rewrite sub_extent_eq by auto. destruct (ssr_nth r j Hr Hj) as (_ & H & _). destruct (dbl && _); lia. }
    assert (D1 := Z.div_mod (nth j c 0 - nth j (n_min (nodeinfo (vl_lat v) r)) 0) (sub_extent v dbl r j) ltac:(lia)).
    assert (D2 := Z.div_mod (nth j c' 0 - nth j (n_min (nodeinfo (vl_lat v) r)) 0) (sub_extent v dbl r j) ltac:(lia)).
    rewrite Hs, Hp in D1. lia.
  Qed.

  Lemma index_inj : forall r c c', is_rank lat r -> holds lat r c -> holds lat r c' ->
    vsite_index v (nodeinfo lat r) c = vsite_index v (nodeinfo lat r) c' -> c = c'.
  Proof.
    intros r c c' Hr Hc Hc' E. apply (site_unique false r); auto.
    - intros j Hj. apply (lane_subnode false r c r c'); auto.
      destruct (index_div false r c Hr Hc) as [_ <-]. destruct (index_div false r c' Hr Hc') as [_ <-]. congruence.
    - apply vec_place; auto.
      destruct (index_div false r c Hr Hc) as [<- _]. destruct (index_div false r c' Hr Hc') as [<- _]. congruence.
  Qed.

  (** ** The coordinates table *)
  Let B (r : Z) := box_sites (mnr r) (szr r).

  Lemma B_In : forall r c, is_rank lat r -> (In c (B r) <-> holds lat r c).
  Proof.
    intros r c Hr. destruct (rank_lens r). unfold B. rewrite box_sites_In by lia. symmetry.
    unfold holds. apply in_region_box.
  Qed.

  Lemma B_len : forall r, is_rank lat r -> Z.of_nat (length (B r)) = volume (nodeinfo lat r).
  Proof.
    intros r Hr. destruct (rank_box lat r vv_valid Hr) as (mn & sz & E & Hl & Hs & E1 & E2).
    unfold B, mnr, szr. rewrite <- E1, <- E2. rewrite box_sites_length by auto.
    symmetry. rewrite rank_volume by (auto; apply vv_valid). rewrite E2. auto.
  Qed.

  Lemma index_perm : forall r, is_rank lat r ->
    Permutation (map (vsite_index v (nodeinfo lat r)) (B r)) (zrange 0 (Z.to_nat (volume (nodeinfo lat r)))).
  Proof.
    intros r Hr. apply NoDup_Permutation_bis.
    - apply NoDup_map_inj; [|apply box_sites_NoDup]. intros x y Hx Hy E.
      apply B_In in Hx, Hy; auto. apply (index_inj r); auto.
    - rewrite map_length, zrange_length. assert (H := B_len r Hr). lia.
    - intros i Hi. apply in_map_iff in Hi. destruct Hi as (c & <- & Hc). apply B_In in Hc; auto.
      apply zrange_In. assert (H := index_range r c Hr Hc). lia.
  Qed.

  Lemma index_surj : forall r i, is_rank lat r -> 0 <= i < volume (nodeinfo lat r) ->
    exists c, holds lat r c /\ vsite_index v (nodeinfo lat r) c = i.
  Proof.
    intros r i Hr Hi.
    assert (Hin : In i (map (vsite_index v (nodeinfo lat r)) (B r))).
    { eapply Permutation_in; [apply Permutation_sym; apply index_perm; auto|]. apply zrange_In. lia. }
    apply in_map_iff in Hin. destruct Hin as (c & E & Hc). exists c. split; auto. apply B_In; auto.
  Qed.

  Lemma vfill_fold : forall r k l arr, vfill v (nodeinfo lat r) k l arr =
    fold_left (fun a c => zupd a (vsite_index v (nodeinfo lat r) c) c) (iter_advance (mnr r) (szr r) k l) arr.
  Proof.
    induction k; intros; cbn [vfill iter_advance fold_left]; auto.
  Qed.

  Lemma crd_index : forall r c, is_rank lat r -> holds lat r c ->
    vcoordinates v (nodeinfo lat r) (vsite_index v (nodeinfo lat r) c) = c.
  Proof.
    intros r c Hr Hc. unfold vcoordinates. rewrite vfill_fold.
    destruct (rank_box lat r vv_valid Hr) as (mn & sz & E & Hl & Hs & E1 & E2).
    rewrite rank_volume by (auto; apply vv_valid). fold (mnr r) in *. fold (szr r) in *.
    rewrite iter_advance_box by (subst; auto). fold (B r). apply fold_upd_in; [|apply B_In; auto].
    eapply Permutation_NoDup; [apply Permutation_sym; apply index_perm; auto|apply zrange_NoDup].
  Qed.

  Lemma crd_spec : forall r i, is_rank lat r -> 0 <= i < volume (nodeinfo lat r) ->
    holds lat r (vcoordinates v (nodeinfo lat r) i) /\
    vsite_index v (nodeinfo lat r) (vcoordinates v (nodeinfo lat r) i) = i.
  Proof.
    intros r i Hr Hi. destruct (index_surj r i Hr Hi) as (c & Hc & <-). rewrite crd_index by auto. auto.
  Qed.
End Ranks.
