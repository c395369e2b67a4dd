(** Layout facts in the form needed by the gather machine. *)
From Verif Require Import Common LayoutModel LayoutSpec LayoutProofs1 LayoutProofs2 LayoutProofs4
  LayoutProofs5 LayoutProofs6 LayoutProofs7 LayoutProofs8 GatherModel GatherSpec GatherProofs1.

Section Layout.
  Variable lat : lattice.
  Hypothesis Hv : valid_lattice lat.
  Hypothesis Hev : even_where_split lat.

  Lemma peers_match : forall s r d, is_rank lat s -> is_rank lat r -> s <> r -> is_direction (l_size lat) d ->
    (cn_rank (to_node lat s d) = r <-> cn_rank (from_node lat r d) = s).
  Proof.
    intros s r d Hs Hr Hn Hd. split; intros E.
    - destruct (messages_match_back lat Hv d s Hd Hs) as [_ H]; [congruence|]. rewrite E in H. auto.
    - destruct (messages_match lat Hv d r Hd Hr) as (_ & H & _); [congruence|]. rewrite E in H. auto.
  Qed.

  Lemma from_is_rank : forall r d, is_rank lat r -> is_direction (l_size lat) d ->
    is_rank lat (cn_rank (from_node lat r d)).
  Proof.
    intros r d Hr Hd. destruct (Z.eq_dec (cn_rank (from_node lat r d)) r) as [->|Hn]; auto.
    apply messages_match; auto.
  Qed.
  Lemma to_is_rank : forall r d, is_rank lat r -> is_direction (l_size lat) d ->
    is_rank lat (cn_rank (to_node lat r d)).
  Proof.
    intros r d Hr Hd. destruct (Z.eq_dec (cn_rank (to_node lat r d)) r) as [->|Hn]; auto.
    apply messages_match_back; auto.
  Qed.

  Lemma from_witness : forall r d, is_rank lat r -> is_direction (l_size lat) d ->
    cn_rank (from_node lat r d) <> r -> exists c0, holds lat r c0 /\ off lat r d c0 = true.
  Proof.
    intros r d Hr Hd Hn. destruct (existsb (off lat r d) (rank_sites lat r)) eqn:E.
    - apply existsb_exists in E. destruct E as (c0 & H1 & H2). apply rank_sites_In in H1; auto. eauto.
    - exfalso. apply Hn. apply from_node_self; auto. intros c Hc.
      destruct (off lat r d c) eqn:Eo; auto. exfalso.
      assert (existsb (off lat r d) (rank_sites lat r) = true)
        by (apply existsb_exists; exists c; split; auto; apply rank_sites_In; auto). congruence.
  Qed.
  Lemma off_from : forall r d c, is_rank lat r -> is_direction (l_size lat) d -> holds lat r c ->
    off lat r d c = true -> cn_rank (from_node lat r d) <> r.
  Proof.
    intros r d c Hr Hd Hc Ho. rewrite (from_node_rank lat Hv r d c) by auto.
    apply face_R_neq; auto.
  Qed.

  Lemma pack_local : forall V r d q (mem : Z -> V) F, is_rank lat r -> is_direction (l_size lat) d ->
    let s := cn_rank (from_node lat r d) in
    s <> r -> (forall c, holds lat s c -> mem (site_index (nodeinfo lat s) c) = F c) ->
    pack lat s d q mem = map (fun c => F (neighbour lat c d)) (face lat r d q).
  Proof.
    intros V r d q mem F Hr Hd s Hn HF. destruct (from_witness r d Hr Hd Hn) as (c0 & H1 & H2).
    set (st := fun R i => if R =? s then mem i else F (coordinates (nodeinfo lat R) i)).
    assert (Hst : represents lat st F).
    { intros R c HR Hc. unfold st. destruct (Z.eqb_spec R s); [subst; auto|].
      rewrite (proj1 (coordinates_inverse lat R Hv HR)); auto. }
    assert (Es : s = node_rank lat (neighbour lat c0 d)) by (apply from_node_rank; auto).
    assert (H := pack_spec lat Hv V r d q c0 st F Hr Hd H1 H2 Hst). cbv zeta in H. rewrite <- Es in H.
    rewrite <- H. unfold pack, st. rewrite Z.eqb_refl. auto.
  Qed.

  (** Halo contents. *)
  Definition halo {V} (mem : Z -> V) (r d : Z) (q : parity) (G : list Z -> V) : Prop :=
    forall c, In c (face lat r d q) -> mem (neighb lat r d (site_index (nodeinfo lat r) c)) = G (neighbour lat c d).

  Lemma halo_address : forall r d q c, is_rank lat r -> is_direction (l_size lat) d ->
    In c (face lat r d q) ->
    let k := neighb lat r d (site_index (nodeinfo lat r) c) in
    cn_offset (from_node lat r d) q <= k < cn_offset (from_node lat r d) q + Z.of_nat (length (face lat r d q)).
  Proof.
    intros r d q c Hr Hd Hi k. apply (proj1 (zrange_In _ _ _)). rewrite <- recv_spec by auto.
    apply (in_map (fun c => neighb lat r d (site_index (nodeinfo lat r) c))). auto.
  Qed.

  Lemma halo_bounds : forall r d q, is_rank lat r -> is_direction (l_size lat) d ->
    halo_start lat r d <= cn_offset (from_node lat r d) q /\
    cn_offset (from_node lat r d) q + Z.of_nat (length (face lat r d q)) <= halo_start lat r (d + 1) /\
    volume (nodeinfo lat r) <= halo_start lat r d.
  Proof.
    intros r d q Hr Hd. rewrite halo_start_succ by auto.
    destruct (from_node_sites lat Hv r d q Hr Hd) as [E1 E2]. rewrite <- E1, <- E2.
    assert (H := cn_sites_nonneg lat r d Hd). assert (H2 := halo_start_ge lat r d Hr). rewrite <- E2 in H2.
    destruct q; cbn [cn_offset n_sites]; unfold cn_sites; lia.
  Qed.

  Lemma halo_store : forall V (mem : Z -> V) r d q G pl, is_rank lat r -> is_direction (l_size lat) d ->
    pl = map (fun c => G (neighbour lat c d)) (face lat r d q) ->
    halo (store_list mem (cn_offset (from_node lat r d) q) pl) r d q G.
  Proof.
    intros V mem r d q G pl Hr Hd -> c Hc. assert (HR := recv_spec lat Hv r d q Hr Hd).
    assert (Hst := store_list_at V (map (fun c => G (neighbour lat c d)) (face lat r d q)) mem
                (cn_offset (from_node lat r d) q)).
    rewrite map_length, <- HR, map_map in Hst.
    apply (map_eq_In _ _ _ _ _ Hst). auto.
  Qed.

  Definition compatible (q q' : parity) : Prop := (q = EVEN /\ q' = ODD) \/ (q = ODD /\ q' = EVEN).

  Lemma halo_disjoint : forall r d q d' q' k, is_rank lat r -> is_direction (l_size lat) d -> is_direction (l_size lat) d' ->
    (d = d' -> compatible q q') ->
    cn_offset (from_node lat r d) q <= k < cn_offset (from_node lat r d) q + Z.of_nat (length (face lat r d q)) ->
    ~ (cn_offset (from_node lat r d') q' <= k < cn_offset (from_node lat r d') q' + Z.of_nat (length (face lat r d' q'))).
  Proof.
    intros r d q d' q' k Hr Hd Hd' Hc Hk Hk'.
    destruct (halo_bounds r d q Hr Hd) as (B1 & B2 & _). destruct (halo_bounds r d' q' Hr Hd') as (C1 & C2 & _).
    unfold is_direction in *.
    destruct (Z.lt_trichotomy d d') as [Hl|[E|Hl]].
    - assert (H := halo_start_mono lat r (d + 1) (Z.to_nat (d' - (d + 1)))). unfold ndirs in H.
      rewrite Z2Nat.id in H by lia. replace (d + 1 + (d' - (d + 1))) with d' in H by lia. lia.
    - subst d'. destruct (from_node_sites lat Hv r d EVEN Hr) as [E1 _]; [unfold is_direction; lia|].
      cbn [n_sites] in E1.
      destruct (Hc eq_refl) as [[-> ->]|[-> ->]]; cbn [cn_offset] in *; lia.
    - assert (H := halo_start_mono lat r (d' + 1) (Z.to_nat (d - (d' + 1)))). unfold ndirs in H.
      rewrite Z2Nat.id in H by lia. replace (d' + 1 + (d - (d' + 1))) with d in H by lia. lia.
  Qed.

  Lemma halo_store_other : forall V (mem : Z -> V) r d q d' q' G pl, is_rank lat r ->
    is_direction (l_size lat) d -> is_direction (l_size lat) d' ->
    (d = d' -> compatible q q') -> length pl = length (face lat r d q) ->
    halo mem r d' q' G -> halo (store_list mem (cn_offset (from_node lat r d) q) pl) r d' q' G.
  Proof.
    intros V mem r d q d' q' G pl Hr Hd Hd' Hc Hl Hh c Hi.
    rewrite store_list_other; [apply Hh; auto|]. rewrite Hl.
    intros Hk. apply (halo_disjoint r d q d' q' _ Hr Hd Hd' Hc Hk). apply halo_address; auto.
  Qed.

  Lemma store_list_sites : forall V (mem : Z -> V) r d q pl c, is_rank lat r -> is_direction (l_size lat) d ->
    holds lat r c ->
    store_list mem (cn_offset (from_node lat r d) q) pl (site_index (nodeinfo lat r) c) =
    mem (site_index (nodeinfo lat r) c).
  Proof.
    intros V mem r d q pl c Hr Hd Hc. apply store_list_other.
    destruct (halo_bounds r d q Hr Hd) as (B1 & _ & B2).
    destruct (site_index_bijection lat r Hv Hr) as [H _]. specialize (H c Hc). lia.
  Qed.

  (** The off-rank neighbour lies in a split direction, so the parity flips. *)
  Lemma off_split : forall r d c, is_rank lat r -> is_direction (l_size lat) d -> holds lat r c ->
    off lat r d c = true -> 1 < nth (axis (length (l_size lat)) d) (n_divisions lat) 0.
  Proof.
    intros r d c Hr Hd Hc Ho. assert (Ha := axis_lt _ _ Hd). set (a := axis (length (l_size lat)) d) in *.
    destruct Hv as (El & Hp1 & Hp2 & _).
    assert (P1 : 0 < nth a (l_size lat) 0) by (apply (Forall_nth (fun x => 0 < x) (l_size lat)); auto).
    assert (P2 : 0 < nth a (n_divisions lat) 0) by (apply (Forall_nth (fun x => 0 < x) (n_divisions lat)); auto; lia).
    destruct (Z.eq_dec (nth a (n_divisions lat) 0) 1) as [E1|]; [|lia]. exfalso.
    rewrite (off_axis lat Hv) in Ho by auto. fold a in Ho.
    destruct (box_nth lat Hv r c a Hr Hc Ha) as [B1 B2].
    assert (Hs := holds_is_site lat r c Hv Hr Hc). destruct Hs as [_ Hs]. specialize (Hs a Ha).
    rewrite B1, B2, E1, Z.mul_1_r in Ho. rewrite Z.div_small in Ho by auto.
    unfold cdiv in Ho. rewrite !Z.div_1_r in Ho. unfold off_iv in Ho.
    assert (Hm := Z.mod_pos_bound (nth a c 0 + sgn (length (l_size lat)) d) (nth a (l_size lat) 0) P1).
    set (x := (nth a c 0 + sgn (length (l_size lat)) d) mod nth a (l_size lat) 0) in *.
    apply negb_true_iff, andb_false_iff in Ho. destruct Ho as [Ho|Ho]; lia.
  Qed.

  Lemma parityb_spec : forall p c, parityb p c = true <-> has_parity p c.
  Proof.
    intros [] c; cbn; unfold site_even; rewrite ?negb_true_iff; rewrite ?Zmod_even; destruct (Z.even (zsum c)); split; intros; auto; try congruence; try lia.
  Qed.

  Lemma face_flip : forall r d q c, is_rank lat r -> is_direction (l_size lat) d -> q <> ALL ->
    In c (face lat r d q) -> parityb q (neighbour lat c d) = false.
  Proof.
    intros r d q c Hr Hd Hq Hi. apply face_In in Hi; auto. destruct Hi as (Hc & Ho & Hp).
    assert (Hs := off_split r d c Hr Hd Hc Ho).
    assert (He := Hev _ (axis_lt _ _ Hd) Hs).
    assert (HN := nbr_parity (l_size lat) c d (valid_pos _ Hv) Hd (holds_is_site lat r c Hv Hr Hc) He).
    apply not_true_iff_false. rewrite parityb_spec. unfold neighbour.
    destruct q; cbn in *; tauto.
  Qed.

  (** Site loops. *)
  Lemma loop_index : forall r p i, is_rank lat r -> In i (loop_indices (nodeinfo lat r) p) ->
    0 <= i < volume (nodeinfo lat r) /\
    holds lat r (coordinates (nodeinfo lat r) i) /\
    site_index (nodeinfo lat r) (coordinates (nodeinfo lat r) i) = i /\
    has_parity p (coordinates (nodeinfo lat r) i).
  Proof.
    intros r p i Hr Hi.
    assert (Hp : holds lat r (coordinates (nodeinfo lat r) i) /\ has_parity p (coordinates (nodeinfo lat r) i)).
    { apply (loop_visits lat r p Hv Hr). apply in_map. auto. }
    assert (H0 : 0 <= i < volume (nodeinfo lat r)).
    { destruct (rank_box lat r Hv Hr) as (mn & sz & E & Hl & Hs & _ & _). rewrite E in *.
      assert (Hn := box_counts_nonneg mn sz Hl Hs). unfold loop_indices in Hi. apply zrange_In in Hi.
      unfold volume. destruct p; cbn [loop_begin loop_end] in Hi; unfold volume in Hi; lia. }
    split; auto. split; [tauto|]. split; [|tauto]. apply coordinates_inverse; auto.
  Qed.

  Lemma loop_index_in : forall r p c, is_rank lat r -> holds lat r c -> has_parity p c ->
    In (site_index (nodeinfo lat r) c) (loop_indices (nodeinfo lat r) p).
  Proof.
    intros r p c Hr Hc Hp. assert (H := proj2 (proj2 (loop_visits lat r p Hv Hr) c) (conj Hc Hp)).
    apply in_map_iff in H. destruct H as (i & E & Hi).
    destruct (loop_index r p i Hr Hi) as (_ & _ & E2 & _). rewrite E in E2. rewrite E2. auto.
  Qed.

  Lemma fold_write : forall V (f : Z -> V) l mem k,
    fold_left (fun m i => zupd m i (f i)) l mem k = if in_dec Z.eq_dec k l then f k else mem k.
  Proof.
    intros V f l. induction l as [|i l IH] using rev_ind; intros mem k; [reflexivity|].
    rewrite fold_left_app. cbn [fold_left]. unfold zupd at 1. destruct (Z.eqb_spec k i) as [ -> |Hn].
    - destruct (in_dec Z.eq_dec i (l ++ [i])) as [_|n]; auto. exfalso. apply n. apply in_app_iff. cbn. auto.
    - rewrite IH. destruct (in_dec Z.eq_dec k l) as [H1|H1], (in_dec Z.eq_dec k (l ++ [i])) as [H2|H2]; auto; exfalso.
      + apply H2, in_app_iff. auto.
      + apply in_app_iff in H2. cbn in H2. intuition.
  Qed.

  Lemma write_sites_spec : forall V r p (w : list Z -> V) mem c, is_rank lat r -> holds lat r c ->
    write_sites V lat r p w mem (site_index (nodeinfo lat r) c) =
    if parityb p c then w c else mem (site_index (nodeinfo lat r) c).
  Proof.
    intros V r p w mem c Hr Hc. unfold write_sites.
    rewrite (fold_write V (fun i => w (coordinates (nodeinfo lat r) i))).
    destruct (in_dec Z.eq_dec _ _) as [H|H].
    - destruct (loop_index r p _ Hr H) as (_ & _ & _ & Hp).
      rewrite (proj1 (coordinates_inverse lat r Hv Hr) c Hc) in *. apply parityb_spec in Hp. rewrite Hp. auto.
    - destruct (parityb p c) eqn:E; auto. exfalso. apply H. apply loop_index_in; auto. apply parityb_spec. auto.
  Qed.

  Lemma write_sites_halo : forall V r p (w : list Z -> V) mem k, is_rank lat r -> volume (nodeinfo lat r) <= k ->
    write_sites V lat r p w mem k = mem k.
  Proof.
    intros V r p w mem k Hr Hk. unfold write_sites. rewrite (fold_write V (fun i => w (coordinates (nodeinfo lat r) i))).
    destruct (in_dec Z.eq_dec _ _) as [H|H]; auto. destruct (loop_index r p _ Hr H) as (? & _). lia.
  Qed.

  (** Reading all neighbours of the loop sites. *)
  Lemma look_correct : forall V r d p (mem : Z -> V) F, is_rank lat r -> is_direction (l_size lat) d ->
    (forall c, holds lat r c -> mem (site_index (nodeinfo lat r) c) = F c) ->
    halo mem r d p F ->
    map (fun i => mem (neighb lat r d i)) (loop_indices (nodeinfo lat r) p) =
    map (fun i => F (neighbour lat (coordinates (nodeinfo lat r) i) d)) (loop_indices (nodeinfo lat r) p).
  Proof.
    intros V r d p mem F Hr Hd Hm Hh. apply map_ext_In. intros i Hi.
    destruct (loop_index r p i Hr Hi) as (_ & Hc & Ei & Hp). set (c := coordinates (nodeinfo lat r) i) in *.
    destruct (off lat r d c) eqn:Eo.
    - rewrite <- Ei. apply Hh. apply face_In; auto.
    - rewrite <- Ei, neighb_local by auto. apply Hm. apply holds_on_node.
      unfold off in Eo. apply negb_false_iff in Eo. auto.
  Qed.

  Lemma send_disjoint : forall r d q q' k, is_rank lat r -> is_direction (l_size lat) d -> compatible q q' ->
    cn_offset (to_node lat r d) q <= k < cn_offset (to_node lat r d) q + n_sites (to_node lat r d) q ->
    ~ (cn_offset (to_node lat r d) q' <= k < cn_offset (to_node lat r d) q' + n_sites (to_node lat r d) q').
  Proof.
    intros r d q q' k Hr Hd Hc. assert (E := to_node_sites lat Hv r d EVEN Hr Hd).
    assert (E' := to_node_sites lat Hv r d ODD Hr Hd).
    destruct Hc as [[-> ->]|[-> ->]]; cbn [n_sites cn_offset] in *; lia.
  Qed.

  Lemma pack_length : forall V r d q (mem : Z -> V), is_rank lat r -> is_direction (l_size lat) d ->
    Z.of_nat (length (pack lat r d q mem)) = n_sites (to_node lat r d) q.
  Proof.
    intros V r d q mem Hr Hd. unfold pack. rewrite map_length, send_spec, map_length by auto.
    rewrite to_node_sites by auto. auto.
  Qed.
End Layout.
