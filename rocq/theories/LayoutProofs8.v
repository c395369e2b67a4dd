(** Halo regions are disjoint and inside the allocation; direction arithmetic. *)
From Verif Require Import Common LayoutModel LayoutSpec LayoutProofs1 LayoutProofs2 LayoutProofs3
  LayoutProofs4 LayoutProofs5 LayoutProofs6 LayoutProofs7.

Lemma offset_before_succ : forall lat rank ni crd ds o k, (k < length ds)%nat ->
  offset_before lat rank ni crd ds o (S k) =
  offset_before lat rank ni crd ds o k +
  cn_sites (dp_from (run_dir lat rank ni crd (nth k ds 0) (offset_before lat rank ni crd ds o k))).
Proof.
  induction ds as [|d ds IH]; intros o k Hk; [simpl in Hk; lia|].
  destruct k.
  - cbn [offset_before nth]. destruct ds; auto.
  - change (offset_before lat rank ni crd (d :: ds) o (S (S k))) with
      (offset_before lat rank ni crd ds (o + cn_sites (dp_from (run_dir lat rank ni crd d o))) (S k)).
    rewrite IH by (simpl in Hk; lia). reflexivity.
Qed.

Lemma halo_start_succ : forall lat r d, is_direction (l_size lat) d ->
  halo_start lat r (d + 1) = halo_start lat r d + cn_sites (from_node lat r d).
Proof.
  intros lat r d Hd. unfold is_direction in Hd. unfold from_node. rewrite dir_tables_run by auto.
  unfold halo_start. replace (Z.to_nat (d + 1)) with (S (Z.to_nat d)) by lia.
  rewrite offset_before_succ by (rewrite zrange_length; unfold ndirs; lia).
  rewrite zrange_nth by (unfold ndirs; lia). rewrite Z.add_0_l, Z2Nat.id by lia. auto.
Qed.

Lemma halo_start_0 : forall lat r, halo_start lat r 0 = volume (nodeinfo lat r).
Proof. intros. unfold halo_start. simpl. destruct (zrange _ _); auto. Qed.

Lemma cn_sites_nonneg : forall lat r d, is_direction (l_size lat) d ->
  0 <= cn_even (from_node lat r d) /\ 0 <= cn_odd (from_node lat r d).
Proof.
  intros. unfold from_node. rewrite dir_tables_run by auto. apply run_dir_sites_nonneg.
Qed.

Lemma halo_start_mono : forall lat r d k, 0 <= d ->
  d + Z.of_nat k <= ndirs lat -> halo_start lat r d <= halo_start lat r (d + Z.of_nat k).
Proof.
  intros lat r d k Hd. induction k; intros Hk; [replace (d + Z.of_nat 0) with d by lia; lia|].
  replace (d + Z.of_nat (S k)) with (d + Z.of_nat k + 1) by lia.
  assert (Hdk : is_direction (l_size lat) (d + Z.of_nat k)) by (unfold is_direction, ndirs in *; lia).
  rewrite halo_start_succ by auto.
  assert (H1 := cn_sites_nonneg lat r _ Hdk). unfold cn_sites. lia.
Qed.

Lemma alloc_size_end : forall lat r,
  field_alloc_size lat r = halo_start lat r (ndirs lat).
Proof.
  intros lat r. unfold field_alloc_size.
  assert (H : forall k, (Z.of_nat k <= ndirs lat) ->
    volume (nodeinfo lat r) + zsum (map (fun d => cn_sites (from_node lat r d)) (zrange 0 k)) =
    halo_start lat r (Z.of_nat k)).
  { induction k; intros Hk.
    - simpl. rewrite halo_start_0. lia.
    - replace (S k) with (k + 1)%nat at 1 by lia. rewrite zrange_app, map_app, zsum_app.
      cbn [zrange map]. rewrite zsum_cons. simpl (zsum []).
      replace (Z.of_nat (S k)) with (Z.of_nat k + 1) by lia.
      rewrite halo_start_succ by (unfold is_direction, ndirs in *; lia).
      rewrite <- IHk by lia. rewrite Z.add_0_l. lia. }
  assert (0 <= ndirs lat) by (unfold ndirs; lia).
  rewrite H by lia. f_equal. lia.
Qed.

(** Every neighbour index is a valid index of the allocated array, and points
    into the local part exactly when the neighbour is on this rank. *)
Lemma neighb_range : forall lat r d c, valid_lattice lat -> is_rank lat r ->
  is_direction (l_size lat) d -> holds lat r c ->
  let k := neighb lat r d (site_index (nodeinfo lat r) c) in
  0 <= k < field_alloc_size lat r /\
  (k < volume (nodeinfo lat r) <-> holds lat r (neighbour lat c d)) /\
  (volume (nodeinfo lat r) <= k -> halo_start lat r d <= k < halo_start lat r (d + 1)).
Proof.
  intros lat r d c Hv Hr Hd Hc k. rewrite alloc_size_end.
  assert (Hge := halo_start_ge lat r d Hr).
  assert (Hvn := vol_nonneg lat Hv r d Hr).
  assert (Hd' := Hd). unfold is_direction in Hd'.
  assert (Hmono : halo_start lat r (d + 1) <= halo_start lat r (ndirs lat)).
  { replace (ndirs lat) with (d + 1 + Z.of_nat (Z.to_nat (ndirs lat - (d + 1)))) by (unfold ndirs; lia).
    apply halo_start_mono; [lia|unfold ndirs; lia]. }
  assert (Hsucc := halo_start_succ lat r d Hd).
  assert (Hnn := cn_sites_nonneg lat r d Hd).
  assert (Hcn : 0 <= cn_sites (from_node lat r d)) by (unfold cn_sites; lia).
  destruct (off lat r d c) eqn:Eo.
  - assert (Hin : In c (face lat r d ALL)) by (apply face_In; auto; cbn; auto).
    assert (HR := recv_spec lat Hv r d ALL Hr Hd).
    assert (Hk : In k (zrange (cn_offset (from_node lat r d) ALL) (length (face lat r d ALL)))).
    { rewrite <- HR. apply (in_map (fun c => neighb lat r d (site_index (nodeinfo lat r) c))). auto. }
    apply zrange_In in Hk. destruct (from_node_sites lat Hv r d ALL Hr Hd) as [E1 E2].
    cbn [cn_offset n_sites] in *. rewrite E2 in Hk. rewrite <- E1 in Hk.
    assert (~ holds lat r (neighbour lat c d)).
    { rewrite holds_on_node. unfold off in Eo. destruct (is_on_node _ _); [discriminate|auto]. }
    split; [lia|split; [|lia]]. split; intros; [exfalso; lia|tauto].
  - assert (Hh : holds lat r (neighbour lat c d)).
    { apply holds_on_node. unfold off in Eo. destruct (is_on_node _ _); [auto|discriminate]. }
    assert (Ek : k = site_index (nodeinfo lat r) (neighbour lat c d)) by (apply neighb_local; auto).
    destruct (site_index_bijection lat r Hv Hr) as [Hb _]. specialize (Hb _ Hh).
    split; [lia|split; [|lia]]. split; intros; [auto|lia].
Qed.

Lemma neighbour_periodic : forall lat c d c', valid_lattice lat -> is_direction (l_size lat) d ->
  is_site (l_size lat) c -> periodic_neighbour (l_size lat) c d c' -> c' = neighbour lat c d.
Proof.
  intros. apply (nbr_periodic (l_size lat) (valid_pos _ H) d); auto.
Qed.

(** ** Direction arithmetic (C08) *)

Lemma opp_dir_involutive : forall n d, opp_dir n (opp_dir n d) = d.
Proof. unfold opp_dir. lia. Qed.
Lemma opp_dir_neq : forall n d, opp_dir n d <> d.
Proof. unfold opp_dir. lia. Qed.

Lemma upd_at_id : forall k c, upd_at k (fun x => x) c = c :> list Z.
Proof. induction k; destruct c; simpl; auto. rewrite IHk. auto. Qed.

Lemma add_at_add_at : forall k u v c, add_at k u (add_at k v c) = add_at k (v + u) c.
Proof. induction k; destruct c; simpl; intros; auto; f_equal; auto. lia. Qed.
Lemma add_at_0 : forall k c, add_at k 0 c = c.
Proof. induction k; destruct c; simpl; auto; f_equal; auto. lia. Qed.

Lemma sub_dir_axis : forall c d, 0 <= d < 2 * Z.of_nat (length c) ->
  sub_dir c d = add_at (axis (length c) d) (- sgn (length c) d) c.
Proof.
  intros. unfold sub_dir, axis, sgn, abs_dir. destruct (is_up_dir _ d); auto.
Qed.

Lemma add_sub_dir : forall c d, 0 <= d < 2 * Z.of_nat (length c) ->
  sub_dir (add_dir c d) d = c /\ add_dir (sub_dir c d) d = c /\
  sub_dir c d = add_dir c (opp_dir (Z.of_nat (length c)) d).
Proof.
  intros c d Hd. rewrite (add_dir_axis c d) by auto.
  rewrite (sub_dir_axis c d) by auto.
  rewrite sub_dir_axis by (rewrite add_at_length; auto).
  rewrite add_dir_axis by (rewrite add_at_length; auto).
  rewrite !add_at_length, !add_at_add_at.
  rewrite add_dir_axis by (unfold opp_dir; lia). rewrite axis_opp, sgn_opp by auto.
  rewrite Z.add_opp_diag_l, Z.add_opp_diag_r, !add_at_0. auto.
Qed.

Lemma cmod_spec : forall c m, length c = length m -> Forall (fun x => 0 < x) m ->
  is_site m (cmod c m) /\
  forall j, (j < length m)%nat -> exists q, nth j c 0 = nth j (cmod c m) 0 + q * nth j m 0.
Proof.
  intros c m Hl Hm. split.
  - split; [rewrite cmod_length; auto|]. intros j Hj. rewrite nth_cmod by (auto; lia).
    apply Z.mod_pos_bound. apply (Forall_nth (fun x => 0 < x) m); auto.
  - intros j Hj. rewrite nth_cmod by (auto; lia). exists (nth j c 0 / nth j m 0).
    assert (0 < nth j m 0) by (apply (Forall_nth (fun x => 0 < x) m); auto).
    assert (H1 := Z.div_mod (nth j c 0) (nth j m 0) ltac:(lia)). lia.
Qed.

Lemma add_dir_parity : forall c d, 0 <= d < 2 * Z.of_nat (length c) ->
  (site_even (add_dir c d) <-> ~ site_even c).
Proof.
  intros c d Hd. rewrite add_dir_axis by auto. rewrite add_at_upd. unfold site_even.
  assert (Ha := axis_lt _ _ Hd).
  rewrite zsum_upd by auto. destruct (sgn_cases (length c) d) as [-> | ->]; lia.
Qed.

Lemma nbr_parity : forall ls c d, Forall (fun x => 0 < x) ls -> is_direction ls d -> is_site ls c ->
  Z.even (nth (axis (length ls) d) ls 0) = true ->
  (site_even (cmod (add_dir c d) ls) <-> ~ site_even c).
Proof.
  intros ls c d Hp Hd Hc He. rewrite nbr_upd by auto. unfold site_even.
  assert (Ha := axis_lt _ _ Hd). destruct Hc as [Hl Hc].
  rewrite zsum_upd by lia. unfold shift1.
  set (a := axis (length ls) d) in *. specialize (Hc a Ha).
  set (x := nth a c 0) in *. set (L := nth a ls 0) in *.
  apply Zeven_bool_iff in He. apply Zeven_ex in He. destruct He as [h Eh].
  assert (Hm := Z.div_mod (x + sgn (length ls) d) L ltac:(lia)).
  set (q := (x + sgn (length ls) d) / L) in *. set (m := (x + sgn (length ls) d) mod L) in *.
  assert (Hhq : exists w, L * q = 2 * w) by (exists (h * q); rewrite Eh; ring).
  destruct Hhq as [w Hw].
  destruct (sgn_cases (length ls) d) as [E|E]; rewrite E in *; lia.
Qed.
