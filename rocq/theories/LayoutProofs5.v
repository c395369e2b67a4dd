(** The faces of two neighbouring ranks match; the two passes of
    create_std_gathers list them in the same order. *)
From Verif Require Import Common LayoutModel LayoutSpec LayoutProofs1 LayoutProofs2 LayoutProofs4.

Definition rank_sites (lat : lattice) (r : Z) : list (list Z) :=
  box_sites (n_min (nodeinfo lat r)) (n_siz (nodeinfo lat r)).

Definition off (lat : lattice) (r d : Z) (c : list Z) : bool :=
  negb (is_on_node (nodeinfo lat r) (neighbour lat c d)).

Definition oppd (lat : lattice) (d : Z) : Z := opp_dir (Z.of_nat (length (l_size lat))) d.

Lemma rank_sites_In : forall lat r c, valid_lattice lat -> is_rank lat r ->
  (In c (rank_sites lat r) <-> holds lat r c).
Proof.
  intros lat r c Hv Hr. rewrite <- stored_sites_In by auto. unfold stored_sites, rank_sites.
  split; apply Permutation_in; [apply Permutation_sym|]; apply box_perm.
Qed.

Lemma valid_pos : forall lat, valid_lattice lat -> Forall (fun x => 0 < x) (l_size lat).
Proof. intros lat Hv. apply Hv. Qed.

Lemma zsum_upd : forall a f c, (a < length c)%nat ->
  zsum (upd_at a f c) = zsum c + (f (nth a c 0) - nth a c 0).
Proof.
  induction a; destruct c; simpl; intros; try lia. rewrite IHa by lia. lia.
Qed.

Ltac side := first [apply valid_pos; assumption | assumption
  | (eapply holds_is_site; [eassumption| |eassumption]; assumption) | auto].

Section Face.
  Variable lat : lattice.
  Hypothesis Hv : valid_lattice lat.
  Variables (r d : Z) (c0 : list Z).
  Hypothesis Hr : is_rank lat r.
  Hypothesis Hd : is_direction (l_size lat) d.
  Hypothesis Hc0 : holds lat r c0.
  Hypothesis Hoff : off lat r d c0 = true.

  Let ls := l_size lat.
  Let nd := n_divisions lat.
  Let a := axis (length ls) d.
  Let t := sgn (length ls) d.
  Let La := nth a ls 0.
  Let na := nth a nd 0.
  Let R := node_rank lat (neighbour lat c0 d).
  Let c1 := neighbour lat c0 d.

  Lemma face_site0 : is_site ls c0.
  Proof. apply (holds_is_site lat r); auto. Qed.

  Lemma face_site1 : is_site ls c1.
  Proof. apply nbr_site; first [apply face_site0|side]. Qed.

  Lemma face_R : is_rank lat R /\ holds lat R c1.
  Proof.
    destruct (owner_unique lat c1 Hv face_site1) as [H1 H2]. split; auto. apply H2; auto.
  Qed.

  Lemma face_R_neq : R <> r.
  Proof.
    intros E. destruct face_R as [_ H]. rewrite E in H. apply holds_on_node in H.
    unfold off in Hoff. fold c1 in Hoff. rewrite H in Hoff. discriminate.
  Qed.

  Lemma face_axis : (a < length ls)%nat.
  Proof. apply axis_lt. auto. Qed.

  Lemma box_nth : forall q c j, is_rank lat q -> holds lat q c -> (j < length ls)%nat ->
    nth j (n_min (nodeinfo lat q)) 0 = cdiv (nth j ls 0) (nth j nd 0) (nth j c 0 * nth j nd 0 / nth j ls 0) /\
    nth j (n_siz (nodeinfo lat q)) 0 =
      cdiv (nth j ls 0) (nth j nd 0) (nth j c 0 * nth j nd 0 / nth j ls 0 + 1) -
      cdiv (nth j ls 0) (nth j nd 0) (nth j c 0 * nth j nd 0 / nth j ls 0).
  Proof.
    intros q c j Hq Hc Hj. apply holds_iff in Hc; auto. destruct Hc as [H1 H2].
    rewrite nodeinfo_min, nodeinfo_siz, <- H2. apply nth_node_box; auto.
    - apply valid_grid; auto.
    - apply is_site_inside; auto.
  Qed.

  Lemma box_lens : forall q, is_rank lat q ->
    length (n_min (nodeinfo lat q)) = length ls /\ length (n_siz (nodeinfo lat q)) = length ls.
  Proof.
    intros. rewrite nodeinfo_min, nodeinfo_siz.
    rewrite node_min_length, node_size_length by (apply valid_grid; auto). auto.
  Qed.

  Lemma grid_nth_pos : forall j, (j < length ls)%nat -> 0 < nth j ls 0 /\ 0 < nth j nd 0.
  Proof.
    intros j Hj. destruct Hv as (E & H1 & H2 & _). split.
    - apply (Forall_nth (fun x => 0 < x) ls); auto.
    - apply (Forall_nth (fun x => 0 < x) nd); auto. unfold nd. rewrite <- E. auto.
  Qed.

  (** The off-node test looks only at the coordinate along the axis. *)
  Lemma off_axis : forall q c e, is_rank lat q -> holds lat q c -> is_direction ls e ->
    off lat q e c = off_iv (nth (axis (length ls) e) (n_min (nodeinfo lat q)) 0)
                           (nth (axis (length ls) e) (n_siz (nodeinfo lat q)) 0)
                           (nth (axis (length ls) e) ls 0) (sgn (length ls) e)
                           (nth (axis (length ls) e) c 0).
  Proof.
    intros q c e Hq Hc He. unfold off, neighbour. fold ls.
    rewrite nbr_upd by side.
    unfold is_on_node. rewrite in_box_upd.
    - reflexivity.
    - apply holds_on_node in Hc. auto.
    - destruct (holds_is_site lat q c Hv Hq Hc) as [E _]. rewrite E. apply axis_lt; auto.
  Qed.

  Lemma face_list : forall q e, is_rank lat q -> is_direction ls e ->
    filter (off lat q e) (rank_sites lat q) =
    prodl (upd_at (axis (length ls) e)
             (filter (off_iv (nth (axis (length ls) e) (n_min (nodeinfo lat q)) 0)
                           (nth (axis (length ls) e) (n_siz (nodeinfo lat q)) 0)
                           (nth (axis (length ls) e) ls 0) (sgn (length ls) e)))
             (box_ranges (n_min (nodeinfo lat q)) (n_siz (nodeinfo lat q)))).
  Proof.
    intros q e Hq He. destruct (box_lens q Hq) as [L1 L2].
    rewrite <- prodl_filter_axis.
    - apply filter_ext_In. intros c Hc. apply off_axis; auto. apply rank_sites_In; auto.
    - rewrite box_ranges_length by lia. rewrite L1. apply axis_lt; auto.
  Qed.

  Let m := nth a (n_min (nodeinfo lat r)) 0.
  Let s := nth a (n_siz (nodeinfo lat r)) 0.
  Let m' := nth a (n_min (nodeinfo lat R)) 0.
  Let s' := nth a (n_siz (nodeinfo lat R)) 0.
  Let x0 := nth a c0 0.

  Lemma c1_nth : forall j, (j < length ls)%nat ->
    nth j c1 0 = if (j =? a)%nat then (x0 + t) mod La else nth j c0 0.
  Proof.
    intros j Hj. unfold c1, neighbour. fold ls.
    rewrite nbr_upd by (first [apply face_site0 | side]).
    rewrite nth_upd_at by (destruct face_site0 as [-> _]; apply face_axis). reflexivity.
  Qed.

  Lemma face_1d_rank :
    map (fun z => (z + t) mod La) (filter (off_iv m s La t) (zrange m (Z.to_nat s))) =
    filter (off_iv m' s' La (- t)) (zrange m' (Z.to_nat s')) /\
    filter (off_iv m s La t) (zrange m (Z.to_nat s)) = [x0].
  Proof.
    destruct face_R as [HR Hc1]. assert (Ha := face_axis).
    destruct (box_nth r c0 a Hr Hc0 Ha) as [E1 E2].
    destruct (box_nth R c1 a HR Hc1 Ha) as [E3 E4].
    rewrite c1_nth, Nat.eqb_refl in E3, E4 by auto.
    destruct (grid_nth_pos a Ha) as [HL Hn].
    destruct face_site0 as [_ Hx]. specialize (Hx a Ha). fold x0 La in Hx.
    fold m in E1. fold s in E2. fold m' in E3. fold s' in E4.
    fold La na x0 in E1, E2, E3, E4, HL, Hn.
    assert (Hkr : 0 <= x0 * na / La < na)
      by (split; [apply Z.div_pos; nia|apply Z.div_lt_upper_bound; nia]).
    assert (Hy : 0 <= (x0 + t) mod La < La) by (apply Z.mod_pos_bound; auto).
    assert (HkR : 0 <= (x0 + t) mod La * na / La < na)
      by (split; [apply Z.div_pos; nia|apply Z.div_lt_upper_bound; nia]).
    assert (Hnn : forall k, 0 <= k < na -> 0 <= cdiv La na k /\ cdiv La na (k + 1) <= La).
    { intros k Hk. split; [apply cdiv_nonneg; lia|]. apply cdiv_ge; auto. nia. }
    assert (B1 := Hnn _ Hkr). assert (B2 := Hnn _ HkR).
    assert (I1 := fun z => cdiv_interval La na (x0 * na / La) z HL Hn).
    assert (I2 := fun z => cdiv_interval La na ((x0 + t) mod La * na / La) z HL Hn).
    assert (Hneq : x0 * na / La <> (x0 + t) mod La * na / La).
    { intros E.
      assert (Hin : m <= (x0 + t) mod La < m + s).
      { assert (Q := proj2 (I1 ((x0 + t) mod La)) (eq_sym E)). lia. }
      rewrite (off_axis r c0 d Hr Hc0 Hd) in Hoff. unfold off_iv in Hoff.
      fold a t x0 m s in Hoff. fold La in Hoff.
      destruct (Z.leb_spec 0 ((x0 + t) mod La - m)), (Z.ltb_spec ((x0 + t) mod La - m) s);
        simpl in Hoff; try discriminate; lia. }
    apply face_map_1d; auto; try lia.
    - apply sgn_cases.
    - intros z Hz1 Hz2. apply Hneq.
      assert (Q1 := proj1 (I1 z)). assert (Q2 := proj1 (I2 z)).
      rewrite <- Q1, <- Q2 by lia. auto.
    - assert (Q := proj2 (I1 x0) eq_refl). lia.
    - assert (Q := proj2 (I2 ((x0 + t) mod La)) eq_refl). lia.
  Qed.

  (** The receiving face maps onto the sending face, in order. *)
  Lemma face_match :
    map (fun c => neighbour lat c d) (filter (off lat r d) (rank_sites lat r)) =
    filter (off lat R (oppd lat d)) (rank_sites lat R).
  Proof.
    destruct face_R as [HR Hc1]. assert (Ha := face_axis).
    assert (Hd' : is_direction ls (oppd lat d)) by (apply opp_dir_range; auto).
    rewrite map_ext_In with (g := upd_at a (shift1 ls d)).
    2: { intros c Hc. apply filter_In in Hc. destruct Hc as [Hc _]. apply rank_sites_In in Hc; auto.
         apply nbr_upd; side. }
    rewrite !face_list by auto. unfold oppd. fold ls. rewrite axis_opp, sgn_opp by auto.
    fold a t.
    destruct (box_lens r Hr) as [L1 L2]. destruct (box_lens R HR) as [L3 L4].
    rewrite prodl_map_axis by (rewrite upd_at_length, box_ranges_length by lia; rewrite L1; auto).
    f_equal. apply nth_ext with (d := []) (d' := []).
    - rewrite !upd_at_length, !box_ranges_length by lia. lia.
    - rewrite !upd_at_length, !box_ranges_length by lia. rewrite L1. intros j Hj.
      rewrite !nth_upd_at by (rewrite ?upd_at_length, box_ranges_length by lia; lia).
      rewrite Nat.eqb_refl. rewrite !nth_box_ranges by lia.
      destruct (Nat.eqb_spec j a) as [->|Hja].
      + apply face_1d_rank.
      + destruct (box_nth r c0 j Hr Hc0 Hj) as [E1 E2].
        destruct (box_nth R c1 j HR Hc1 Hj) as [E3 E4].
        rewrite c1_nth in E3, E4 by auto.
        destruct (Nat.eqb_spec j a); [congruence|].
        rewrite E1, E2, E3, E4. auto.
  Qed.

  (** Along the face the parity of the neighbour is a fixed flip of the site's. *)
  Lemma face_parity : exists flip, forall c, holds lat r c -> off lat r d c = true ->
    even_site (neighbour lat c d) = xorb flip (even_site c).
  Proof.
    exists (negb (Z.even ((x0 + t) mod La - x0))). intros c Hc Ho.
    assert (Hs := holds_is_site lat r c Hv Hr Hc).
    assert (Hx : nth a c 0 = x0).
    { rewrite (off_axis r c d Hr Hc Hd) in Ho. fold a t m s in Ho. fold La in Ho.
      assert (Hin : In (nth a c 0) (filter (off_iv m s La t) (zrange m (Z.to_nat s)))).
      { apply filter_In. split; auto. apply zrange_In.
        destruct Hc as (Hl1 & Hl2 & Hc). destruct Hs as [Hl _].
        specialize (Hc a ltac:(rewrite Hl; apply face_axis)). fold m s in Hc. lia. }
      destruct face_1d_rank as [_ E]. rewrite E in Hin. simpl in Hin. destruct Hin; auto. tauto. }
    unfold neighbour. fold ls. rewrite nbr_upd by side.
    rewrite !even_site_spec, zsum_upd by (destruct Hs as [-> _]; apply face_axis).
    fold a. rewrite Hx. unfold shift1. fold a t. fold La. rewrite Z.even_add.
    destruct (Z.even (zsum c)), (Z.even ((x0 + t) mod La - x0)); auto.
  Qed.

  (** All off-node neighbours in one direction live on one rank. *)
  Lemma face_same_rank : forall c, holds lat r c -> off lat r d c = true ->
    node_rank lat (neighbour lat c d) = R.
  Proof.
    intros c Hc Ho. destruct face_R as [HR _].
    assert (Hin : In (neighbour lat c d) (map (fun c => neighbour lat c d) (filter (off lat r d) (rank_sites lat r)))).
    { apply (in_map (fun c => neighbour lat c d)). apply filter_In. split; auto. apply rank_sites_In; auto. }
    rewrite face_match in Hin. apply filter_In in Hin. destruct Hin as [Hin _].
    apply rank_sites_In in Hin; auto. symmetry. apply owner_unique; auto.
    apply nbr_site; side.
  Qed.

  Lemma face_back : off lat R (oppd lat d) c1 = true /\ neighbour lat c1 (oppd lat d) = c0.
  Proof.
    assert (Hin : In c1 (map (fun c => neighbour lat c d) (filter (off lat r d) (rank_sites lat r)))).
    { apply (in_map (fun c => neighbour lat c d)). apply filter_In. split; auto. apply rank_sites_In; auto. }
    rewrite face_match in Hin. apply filter_In in Hin. split; [apply Hin|].
    unfold c1, neighbour, oppd. fold ls. apply nbr_opp_inverse; first [apply face_site0 | side].
  Qed.
End Face.
