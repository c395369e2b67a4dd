(** The halo exchange delivers the periodic neighbours (C04). *)
From Verif Require Import Common LayoutModel LayoutSpec LayoutProofs1 LayoutProofs2
  LayoutProofs4 LayoutProofs5 LayoutProofs6.

(** ** The direction loop *)

Fixpoint offset_before (lat : lattice) (rank : Z) (ni : node_info) (crd : Z -> list Z)
  (ds : list Z) (o : Z) (k : nat) : Z :=
  match k, ds with
  | S k', d :: ds' => offset_before lat rank ni crd ds'
                        (o + cn_sites (dp_from (run_dir lat rank ni crd d o))) k'
  | _, _ => o
  end.

Lemma gathers_loop_nth : forall lat rank ni crd ds o k, (k < length ds)%nat ->
  nth k (gathers_loop lat rank ni crd ds o) empty_pass =
  run_dir lat rank ni crd (nth k ds 0) (offset_before lat rank ni crd ds o k).
Proof.
  induction ds; simpl; intros; [lia|]. destruct k; auto. apply IHds. lia.
Qed.

Definition halo_start (lat : lattice) (rank d : Z) : Z :=
  offset_before lat rank (nodeinfo lat rank) (coordinates (nodeinfo lat rank))
    (zrange 0 (Z.to_nat (ndirs lat))) (volume (nodeinfo lat rank)) (Z.to_nat d).

Lemma dir_tables_run : forall lat rank d, is_direction (l_size lat) d ->
  dir_tables lat rank d =
  run_dir lat rank (nodeinfo lat rank) (coordinates (nodeinfo lat rank)) d (halo_start lat rank d).
Proof.
  intros lat rank d Hd. unfold is_direction in Hd. unfold dir_tables, create_std_gathers, halo_start.
  unfold ndirs. rewrite gathers_loop_nth by (rewrite zrange_length; lia).
  rewrite zrange_nth by lia. rewrite Z2Nat.id by lia. auto.
Qed.

Lemma run_dir_sites_nonneg : forall lat rank ni crd d o,
  0 <= cn_even (dp_from (run_dir lat rank ni crd d o)) /\
  0 <= cn_odd (dp_from (run_dir lat rank ni crd d o)).
Proof.
  intros. unfold run_dir. cbn [dp_from cn_even cn_odd]. unfold run_pass1.
  destruct (pass1_spec lat rank ni crd d (zrange 0 (Z.to_nat (volume ni)))
    (mkPass1 (fun _ => 0) rank 0 0 0 0) (zrange_NoDup _ _)) as (_ & E1 & E2 & _).
  rewrite E1, E2. cbn [p1_from_even p1_from_odd].
  assert (H1 := cnt_nonneg _ (fun i => negb (is_on_node ni (neighbour lat (crd i) d)) && even_site (crd i)) (zrange 0 (Z.to_nat (volume ni)))).
  assert (H2 := cnt_nonneg _ (fun i => negb (is_on_node ni (neighbour lat (crd i) d)) && negb (even_site (crd i))) (zrange 0 (Z.to_nat (volume ni)))).
  lia.
Qed.

(** ** Lists over the storage order *)

Lemma filter_stored : forall (P : list Z -> bool) B b,
  (forall c, In c B -> P c = true -> even_site c = b) ->
  filter P (filter even_site B ++ filter odd_site B) = filter P B.
Proof.
  intros P B b H. rewrite filter_app, !filter_filter. destruct b.
  - rewrite (filter_none _ (fun x => odd_site x && P x)).
    + rewrite app_nil_r. apply filter_ext_In. intros c Hc. specialize (H c Hc).
      destruct (P c), (even_site c); auto; discriminate (H eq_refl).
    + intros c Hc. unfold odd_site. specialize (H c Hc). destruct (P c); [rewrite H; auto|].
      apply andb_false_r.
  - rewrite (filter_none _ (fun x => even_site x && P x)).
    + cbn [app]. apply filter_ext_In. intros c Hc. specialize (H c Hc). unfold odd_site.
      destruct (P c), (even_site c); auto; discriminate (H eq_refl).
    + intros c Hc. specialize (H c Hc). destruct (P c); [rewrite H; auto|]. apply andb_false_r.
Qed.

Definition face (lat : lattice) (r d : Z) (p : parity) : list (list Z) :=
  let FE := filter (fun c => off lat r d c && even_site c) (rank_sites lat r) in
  let FO := filter (fun c => off lat r d c && negb (even_site c)) (rank_sites lat r) in
  match p with EVEN => FE | ODD => FO | ALL => FE ++ FO end.

Section Rank.
  Variable lat : lattice.
  Hypothesis Hv : valid_lattice lat.
  Variables (r d : Z).
  Hypothesis Hr : is_rank lat r.
  Hypothesis Hd : is_direction (l_size lat) d.

  Let ni := nodeinfo lat r.
  Let crd := coordinates ni.
  Let I := zrange 0 (Z.to_nat (volume ni)).
  Let o := halo_start lat r d.

  Lemma vol_nonneg : 0 <= volume ni.
  Proof.
    destruct (rank_box _ _ Hv Hr) as (mn & sz & E & Hl & Hs & _).
    unfold volume. unfold ni. rewrite E. assert (H := box_counts_nonneg mn sz Hl Hs). lia.
  Qed.

  Lemma crd_I : map crd I = stored_sites lat r.
  Proof.
    destruct (rank_box _ _ Hv Hr) as (mn & sz & E & Hl & Hs & Em & Es).
    unfold crd, I, ni, stored_sites. rewrite <- Em, <- Es. rewrite E.
    apply coordinates_all; auto.
  Qed.

  Lemma si_crd : forall i, In i I -> site_index ni (crd i) = i /\ holds lat r (crd i).
  Proof.
    intros i Hi. unfold I in Hi. apply zrange_In in Hi. assert (Hvn := vol_nonneg).
    destruct (coordinates_inverse lat r Hv Hr) as [_ H]. unfold crd, ni in *.
    destruct (H i ltac:(lia)). auto.
  Qed.

  Lemma filter_I : forall P, filter (fun i => P (crd i)) I = map (site_index ni) (filter P (stored_sites lat r)).
  Proof.
    intros P. rewrite <- crd_I, filter_map, map_map.
    rewrite map_ext_In with (g := fun i => i); [rewrite map_id; auto|].
    intros i Hi. apply filter_In in Hi. apply si_crd. tauto.
  Qed.

  Lemma cnt_I : forall P, cnt (fun i => P (crd i)) I = Z.of_nat (length (filter P (stored_sites lat r))).
  Proof. intros. unfold cnt. rewrite filter_I, map_length. auto. Qed.

  Lemma stored_face_e : filter (fun c => off lat r d c && even_site c) (stored_sites lat r) = face lat r d EVEN.
  Proof. apply filter_stored with (b := true). intros c _ HH. apply andb_true_iff in HH.
    destruct HH as [_ HH]; destruct (even_site c); auto; discriminate. Qed.
  Lemma stored_face_o : filter (fun c => off lat r d c && negb (even_site c)) (stored_sites lat r) = face lat r d ODD.
  Proof. apply filter_stored with (b := false). intros c _ HH. apply andb_true_iff in HH.
    destruct HH as [_ HH]; destruct (even_site c); auto; discriminate. Qed.

  (** Sending side lists, classified by the parity of the receiving site. *)
  Definition send_face (p : parity) : list (list Z) :=
    let GE := filter (fun c => off lat r d c && even_site (neighbour lat c d)) (rank_sites lat r) in
    let GO := filter (fun c => off lat r d c && negb (even_site (neighbour lat c d))) (rank_sites lat r) in
    match p with EVEN => GE | ODD => GO | ALL => GE ++ GO end.

  Lemma off_flip : exists flip, forall c, In c (rank_sites lat r) -> off lat r d c = true ->
    even_site (neighbour lat c d) = xorb flip (even_site c).
  Proof.
    destruct (existsb (off lat r d) (rank_sites lat r)) eqn:E.
    - apply existsb_exists in E. destruct E as (c0 & H1 & H2). apply rank_sites_In in H1; auto.
      destruct (face_parity lat Hv r d c0 Hr Hd H1 H2) as [fl Hf]. exists fl. intros c Hc Ho.
      apply Hf; auto. apply rank_sites_In in Hc; auto.
    - exists false. intros c Hc Ho. exfalso.
      assert (existsb (off lat r d) (rank_sites lat r) = true) by (apply existsb_exists; eauto). congruence.
  Qed.

  Lemma stored_send_e : filter (fun c => off lat r d c && even_site (neighbour lat c d)) (stored_sites lat r)
    = send_face EVEN.
  Proof.
    destruct off_flip as [fl Hf]. apply filter_stored with (b := negb fl). intros c Hc H.
    apply andb_true_iff in H. destruct H as [Ho He]. rewrite Hf in He by auto.
    destruct fl, (even_site c); auto; discriminate.
  Qed.
  Lemma stored_send_o : filter (fun c => off lat r d c && negb (even_site (neighbour lat c d))) (stored_sites lat r)
    = send_face ODD.
  Proof.
    destruct off_flip as [fl Hf]. apply filter_stored with (b := fl). intros c Hc H.
    apply andb_true_iff in H. destruct H as [Ho He]. rewrite Hf in He by auto.
    destruct fl, (even_site c); auto; discriminate.
  Qed.

  Let p1 := run_pass1 lat r ni crd d.
  Let T := run_dir lat r ni crd d o.

  Lemma p1_facts :
    (forall i, In i I -> p1_neighb p1 i =
       if off lat r d (crd i) then volume ni else site_index ni (neighbour lat (crd i) d)) /\
    p1_from_even p1 = Z.of_nat (length (face lat r d EVEN)) /\
    p1_from_odd p1 = Z.of_nat (length (face lat r d ODD)) /\
    p1_to_even p1 = Z.of_nat (length (send_face EVEN)) /\
    p1_to_odd p1 = Z.of_nat (length (send_face ODD)).
  Proof.
    destruct (pass1_spec lat r ni crd d I (mkPass1 (fun _ => 0) r 0 0 0 0) (zrange_NoDup _ _))
      as (E1 & E2 & E3 & E4 & E5).
    cbn [p1_from_even p1_from_odd p1_to_even p1_to_odd] in *.
    unfold p1, run_pass1. fold I. split; [|split; [|split; [|split]]].
    - intros i Hi. rewrite E1. destruct (in_dec Z.eq_dec i I); [auto|tauto].
    - rewrite E2, <- stored_face_e. apply (cnt_I (fun c => off lat r d c && even_site c)).
    - rewrite E3, <- stored_face_o. apply (cnt_I (fun c => off lat r d c && negb (even_site c))).
    - rewrite E4, <- stored_send_e. apply (cnt_I (fun c => off lat r d c && even_site (neighbour lat c d))).
    - rewrite E5, <- stored_send_o. apply (cnt_I (fun c => off lat r d c && negb (even_site (neighbour lat c d)))).
  Qed.

  Lemma face_filter_length :
    (length (face lat r d EVEN) + length (face lat r d ODD) = length (filter (off lat r d) (rank_sites lat r)))%nat.
  Proof.
    assert (H := cnt_split _ (off lat r d) even_site (rank_sites lat r)). unfold cnt in H.
    cbn [face]. lia.
  Qed.
  Lemma send_face_length :
    (length (send_face EVEN) + length (send_face ODD) = length (filter (off lat r d) (rank_sites lat r)))%nat.
  Proof.
    assert (H := cnt_split _ (off lat r d) (fun c => even_site (neighbour lat c d)) (rank_sites lat r)). unfold cnt in H.
    cbn [send_face]. lia.
  Qed.

  Lemma T_facts :
    (forall c, holds lat r c -> off lat r d c = false ->
       dp_neighb T (site_index ni c) = site_index ni (neighbour lat c d)) /\
    map (fun c => dp_neighb T (site_index ni c)) (face lat r d EVEN) = zrange o (length (face lat r d EVEN)) /\
    map (fun c => dp_neighb T (site_index ni c)) (face lat r d ODD) =
      zrange (o + Z.of_nat (length (face lat r d EVEN))) (length (face lat r d ODD)) /\
    map (cn_sitelist (dp_to_opp T)) (zrange 0 (length (send_face EVEN))) = map (site_index ni) (send_face EVEN) /\
    map (cn_sitelist (dp_to_opp T)) (zrange (Z.of_nat (length (send_face EVEN))) (length (send_face ODD)))
      = map (site_index ni) (send_face ODD).
  Proof.
    destruct p1_facts as (P0 & P1 & P2 & P3 & P4).
    assert (Hsi : forall c, holds lat r c -> In (site_index ni c) I /\ crd (site_index ni c) = c).
    { intros c Hc. destruct (site_index_bijection lat r Hv Hr) as [H1 _].
      destruct (coordinates_inverse lat r Hv Hr) as [H2 _]. split.
      - unfold I. apply zrange_In. specialize (H1 c Hc). unfold ni. assert (Hvn := vol_nonneg). unfold ni in Hvn. lia.
      - apply H2. auto. }
    unfold T, run_dir. fold p1. cbn [dp_neighb dp_to_opp cn_sitelist].
    destruct (Z.ltb_spec 0 (p1_to_even p1 + p1_to_odd p1)) as [Hpos|Hz].
    - assert (Hnb0 : forall i, In i I -> (p2_neighb (mkPass2 (p1_neighb p1) 0 0 0 0 (fun _ => 0)) i =? volume ni)
                = negb (is_on_node ni (neighbour lat (crd i) d))).
      { intros i Hi. cbn [p2_neighb]. rewrite P0 by auto. unfold off. fold ni.
        destruct (is_on_node ni (neighbour lat (crd i) d)) eqn:E; cbn [negb].
        - destruct (site_index_bijection lat r Hv Hr) as [H1 _].
          specialize (H1 (neighbour lat (crd i) d)). rewrite holds_on_node in H1. specialize (H1 E).
          fold ni in H1. lia.
        - apply Z.eqb_refl. }
      destruct (pass2_spec lat ni crd d o p1 I (mkPass2 (p1_neighb p1) 0 0 0 0 (fun _ => 0)) (zrange_NoDup _ _) Hnb0)
        as (A1 & A2 & A3 & A4 & A5 & _); cbn [p2_to_even p2_to_odd]; try lia.
      { rewrite P3, <- stored_send_e.
        apply Z.eq_le_incl. apply (cnt_I (fun c => off lat r d c && even_site (neighbour lat c d))). }
      unfold run_pass2. fold I.
      set (res := fold_left (pass2_step lat ni crd d o p1) I (mkPass2 (p1_neighb p1) 0 0 0 0 (fun _ => 0))) in *.
      cbn [p2_neighb p2_from_even p2_from_odd p2_to_even p2_to_odd] in *.
      change (fun i => negb (is_on_node ni (neighbour lat (crd i) d)) && even_site (crd i))
        with (fun i => off lat r d (crd i) && even_site (crd i)) in A2.
      change (fun i => negb (is_on_node ni (neighbour lat (crd i) d)) && negb (even_site (crd i)))
        with (fun i => off lat r d (crd i) && negb (even_site (crd i))) in A3.
      change (fun i => negb (is_on_node ni (neighbour lat (crd i) d)) && even_site (neighbour lat (crd i) d))
        with (fun i => off lat r d (crd i) && even_site (neighbour lat (crd i) d)) in A4.
      change (fun i => negb (is_on_node ni (neighbour lat (crd i) d)) && negb (even_site (neighbour lat (crd i) d)))
        with (fun i => off lat r d (crd i) && negb (even_site (neighbour lat (crd i) d))) in A5.
      rewrite (filter_I (fun c => off lat r d c && even_site c)), stored_face_e, map_map, map_length in A2.
      rewrite (filter_I (fun c => off lat r d c && negb (even_site c))), stored_face_o, map_map, map_length in A3.
      rewrite (filter_I (fun c => off lat r d c && even_site (neighbour lat c d))), stored_send_e, map_length in A4.
      rewrite (filter_I (fun c => off lat r d c && negb (even_site (neighbour lat c d)))), stored_send_o, map_length in A5.
      split; [|split; [|split; [|split]]].
      + intros c Hc Ho. destruct (Hsi c Hc) as [H1 H2]. rewrite A1.
        * rewrite P0, H2, Ho; auto.
        * rewrite H2. unfold off in Ho. fold ni in Ho. intros [_ H]. congruence.
      + rewrite A2. f_equal. lia.
      + rewrite A3. f_equal. lia.
      + rewrite A4. auto.
      + rewrite <- A5. do 2 f_equal. lia.
    - assert (L1 := face_filter_length). assert (L2 := send_face_length).
      assert (Z1 : length (face lat r d EVEN) = 0%nat) by lia.
      assert (Z2 : length (face lat r d ODD) = 0%nat) by lia.
      assert (Z3 : length (send_face EVEN) = 0%nat) by lia.
      assert (Z4 : length (send_face ODD) = 0%nat) by lia.
      apply length_zero_iff_nil in Z1, Z2, Z3, Z4. rewrite Z1, Z2, Z3, Z4.
      split; [|repeat split].
      intros c Hc Ho. destruct (Hsi c Hc) as [H1 H2]. cbn [p2_neighb]. rewrite P0, H2, Ho; auto.
  Qed.

  Lemma T_from : cn_even (dp_from T) = Z.of_nat (length (face lat r d EVEN)) /\
    cn_odd (dp_from T) = Z.of_nat (length (face lat r d ODD)) /\ cn_buffer (dp_from T) = o.
  Proof.
    destruct p1_facts as (P0 & P1 & P2 & P3 & P4). unfold T, run_dir. fold p1. cbn. auto.
  Qed.
  Lemma T_to : cn_even (dp_to_opp T) = Z.of_nat (length (send_face EVEN)) /\
    cn_odd (dp_to_opp T) = Z.of_nat (length (send_face ODD)).
  Proof.
    destruct p1_facts as (P0 & P1 & P2 & P3 & P4). unfold T, run_dir. fold p1. cbn. auto.
  Qed.

  Lemma T_rank :
    cn_rank (dp_from T) = cn_rank (dp_to_opp T) /\
    (forall c0, holds lat r c0 -> off lat r d c0 = true ->
       cn_rank (dp_from T) = node_rank lat (neighbour lat c0 d)) /\
    ((forall c0, holds lat r c0 -> off lat r d c0 = false) -> cn_rank (dp_from T) = r).
  Proof.
    split; [reflexivity|]. split.
    - intros c0 Hc Ho. unfold T, run_dir. cbn [dp_from cn_rank]. unfold run_pass1. fold I.
      rewrite (pass1_rank lat r ni crd d (node_rank lat (neighbour lat c0 d))).
      + destruct (existsb _ I) eqn:E; auto. exfalso.
        assert (Hex : existsb (fun i => negb (is_on_node ni (neighbour lat (crd i) d))) I = true); [|congruence].
        apply existsb_exists. exists (site_index ni c0).
        destruct (site_index_bijection lat r Hv Hr) as [H1 _].
        destruct (coordinates_inverse lat r Hv Hr) as [H2 _]. split.
        * unfold I. apply zrange_In. specialize (H1 c0 Hc). unfold ni. assert (Hvn := vol_nonneg). unfold ni in Hvn. lia.
        * unfold crd, ni. rewrite H2 by auto. auto.
      + intros i Hi Hoi. destruct (si_crd i Hi) as [_ Hh].
        apply (face_same_rank lat Hv r d c0); auto.
      + apply (face_R_neq lat Hv r d c0); auto.
      + left. reflexivity.
    - intros Hn. unfold T, run_dir. cbn [dp_from cn_rank]. unfold run_pass1. fold I.
      rewrite pass1_rank_none; auto. intros i Hi. apply (Hn (crd i)). apply si_crd; auto.
  Qed.
End Rank.

Lemma seq_map : forall (f : Z -> Z) n a b, map (fun k => f (a + k)) (zrange b n) = map f (zrange (a + b) n).
Proof. intros. rewrite <- zrange_map_add, map_map. auto. Qed.

Section Exchange.
  Variable lat : lattice.
  Hypothesis Hv : valid_lattice lat.

  Lemma from_node_rank : forall r d c0, is_rank lat r -> is_direction (l_size lat) d ->
    holds lat r c0 -> off lat r d c0 = true ->
    cn_rank (from_node lat r d) = node_rank lat (neighbour lat c0 d).
  Proof.
    intros. unfold from_node. rewrite dir_tables_run by auto. apply T_rank; auto.
  Qed.

  Lemma from_node_self : forall r d, is_rank lat r -> is_direction (l_size lat) d ->
    (forall c0, holds lat r c0 -> off lat r d c0 = false) -> cn_rank (from_node lat r d) = r.
  Proof.
    intros. unfold from_node. rewrite dir_tables_run by auto. apply T_rank; auto.
  Qed.

  Lemma oppd_direction : forall d, is_direction (l_size lat) d -> is_direction (l_size lat) (oppd lat d).
  Proof. intros. apply opp_dir_range. auto. Qed.

  Lemma oppd_oppd : forall d, oppd lat (oppd lat d) = d.
  Proof. intros. unfold oppd, opp_dir. lia. Qed.

  Lemma to_node_rank : forall r d c0, is_rank lat r -> is_direction (l_size lat) d ->
    holds lat r c0 -> off lat r (oppd lat d) c0 = true ->
    cn_rank (to_node lat r d) = node_rank lat (neighbour lat c0 (oppd lat d)).
  Proof.
    intros. unfold to_node. fold (oppd lat d). rewrite dir_tables_run by (apply oppd_direction; auto).
    destruct (T_rank lat Hv r (oppd lat d) H (oppd_direction _ H0)) as (E & E2 & _).
    rewrite <- E. apply E2; auto.
  Qed.

  Lemma from_node_sites : forall r d p, is_rank lat r -> is_direction (l_size lat) d ->
    n_sites (from_node lat r d) p = Z.of_nat (length (face lat r d p)) /\
    cn_buffer (from_node lat r d) = halo_start lat r d.
  Proof.
    intros r d p Hr Hd. unfold from_node. rewrite dir_tables_run by auto.
    destruct (T_from lat Hv r d Hr Hd) as (E1 & E2 & E3).
    destruct p; cbn [n_sites face] in *; auto.
    unfold cn_sites. rewrite E1, E2. split; auto. rewrite app_length. lia.
  Qed.

  (** Halo slots are handed out in face order. *)
  Lemma recv_spec : forall r d p, is_rank lat r -> is_direction (l_size lat) d ->
    map (fun c => neighb lat r d (site_index (nodeinfo lat r) c)) (face lat r d p) =
    zrange (cn_offset (from_node lat r d) p) (length (face lat r d p)).
  Proof.
    intros r d p Hr Hd. unfold neighb, from_node. rewrite dir_tables_run by auto.
    destruct (T_facts lat Hv r d Hr Hd) as (_ & A2 & A3 & _).
    destruct (T_from lat Hv r d Hr Hd) as (E1 & E2 & E3).
    destruct p; cbn [cn_offset].
    - rewrite A2, E3. auto.
    - rewrite A3, E3, E1. auto.
    - cbn [face] in *. rewrite map_app, A2, A3, E3, app_length, zrange_app. auto.
  Qed.

  Lemma neighb_local : forall r d c, is_rank lat r -> is_direction (l_size lat) d -> holds lat r c ->
    off lat r d c = false ->
    neighb lat r d (site_index (nodeinfo lat r) c) = site_index (nodeinfo lat r) (neighbour lat c d).
  Proof.
    intros r d c Hr Hd Hc Ho. unfold neighb. rewrite dir_tables_run by auto.
    apply (T_facts lat Hv r d Hr Hd); auto.
  Qed.

  (** What is packed, in terms of the sender's own face. *)
  Lemma send_spec : forall r d p, is_rank lat r -> is_direction (l_size lat) d ->
    get_sitelist (to_node lat r d) p =
    map (site_index (nodeinfo lat r)) (send_face lat r (oppd lat d) p).
  Proof.
    intros r d p Hr Hd. unfold to_node. fold (oppd lat d).
    assert (Hd' := oppd_direction d Hd). rewrite dir_tables_run by auto.
    destruct (T_facts lat Hv r (oppd lat d) Hr Hd') as (_ & _ & _ & A4 & A5).
    destruct (T_to lat Hv r (oppd lat d) Hr Hd') as (E1 & E2).
    destruct p; cbn [get_sitelist].
    - rewrite E1, Nat2Z.id. auto.
    - rewrite seq_map, E1, E2, Nat2Z.id, Z.add_0_r. auto.
    - unfold cn_sites. rewrite E1, E2. rewrite Z2Nat.inj_add, !Nat2Z.id by lia.
      rewrite zrange_app, map_app, A4. cbn [send_face]. rewrite map_app. f_equal.
      rewrite Z.add_0_l. auto.
  Qed.

  Lemma to_node_sites : forall r d p, is_rank lat r -> is_direction (l_size lat) d ->
    n_sites (to_node lat r d) p = Z.of_nat (length (send_face lat r (oppd lat d) p)).
  Proof.
    intros r d p Hr Hd. unfold to_node. fold (oppd lat d).
    assert (Hd' := oppd_direction d Hd). rewrite dir_tables_run by auto.
    destruct (T_to lat Hv r (oppd lat d) Hr Hd') as (E1 & E2).
    destruct p; cbn [n_sites send_face] in *; auto.
    unfold cn_sites. rewrite E1, E2, app_length. lia.
  Qed.

  (** The sender's list is the neighbours of the receiver's face, in order. *)
  Lemma send_face_match : forall r d c0 p, is_rank lat r -> is_direction (l_size lat) d ->
    holds lat r c0 -> off lat r d c0 = true ->
    let R := node_rank lat (neighbour lat c0 d) in
    send_face lat R (oppd lat d) p = map (fun c => neighbour lat c d) (face lat r d p).
  Proof.
    intros r d c0 p Hr Hd Hc0 Ho R.
    assert (HM := face_match lat Hv r d c0 Hr Hd Hc0 Ho). fold R in HM.
    assert (HP : forall q : bool -> bool,
      filter (fun c => off lat R (oppd lat d) c && q (even_site (neighbour lat c (oppd lat d)))) (rank_sites lat R) =
      map (fun c => neighbour lat c d)
        (filter (fun c => off lat r d c && q (even_site c)) (rank_sites lat r))).
    { intros q. rewrite <- (filter_filter _ (fun c => q (even_site (neighbour lat c (oppd lat d)))) (off lat R (oppd lat d))).
      rewrite <- HM, filter_map. f_equal.
      rewrite filter_filter. apply filter_ext_In. intros c Hc. f_equal. f_equal. f_equal.
      unfold neighbour, oppd. apply nbr_opp_inverse; auto; [apply valid_pos; auto|].
      apply rank_sites_In in Hc; auto. apply (holds_is_site lat r); auto. }
    destruct p; cbn [send_face face].
    - apply (HP (fun b => b)).
    - apply (HP negb).
    - rewrite map_app. f_equal; [apply (HP (fun b => b))|apply (HP negb)].
  Qed.

  Variable V : Type.

  Lemma store_list_other : forall msg (mem : Z -> V) a k, ~ (a <= k < a + Z.of_nat (length msg)) ->
    store_list mem a msg k = mem k.
  Proof.
    induction msg; intros; cbn [store_list]; auto. cbn [length] in H. rewrite IHmsg by lia.
    apply zupd_other. lia.
  Qed.

  Lemma store_list_at : forall msg (mem : Z -> V) a,
    map (store_list mem a msg) (zrange a (length msg)) = msg.
  Proof.
    induction msg; intros; cbn [store_list length zrange map]; auto. f_equal; [|apply IHmsg].
    rewrite store_list_other by lia. apply zupd_same.
  Qed.

  Lemma map_eq_In : forall A B (f g : A -> B) l, map f l = map g l -> forall x, In x l -> f x = g x.
  Proof. induction l; simpl; intros; [tauto|]. inversion H. destruct H0; subst; auto. Qed.

  Lemma halo_start_ge : forall r d, is_rank lat r -> volume (nodeinfo lat r) <= halo_start lat r d.
  Proof.
    intros r d Hr. unfold halo_start.
    generalize (zrange 0 (Z.to_nat (ndirs lat))) (volume (nodeinfo lat r)) (Z.to_nat d).
    induction l; intros z n; destruct n; cbn [offset_before]; try lia.
    etransitivity; [|apply IHl].
    assert (H := run_dir_sites_nonneg lat r (nodeinfo lat r) (coordinates (nodeinfo lat r)) a z).
    unfold cn_sites. lia.
  Qed.

  (** Received data for the face. *)
  Lemma pack_spec : forall r d p c0 (st : Z -> Z -> V) F, is_rank lat r -> is_direction (l_size lat) d ->
    holds lat r c0 -> off lat r d c0 = true -> represents lat st F ->
    let R := node_rank lat (neighbour lat c0 d) in
    pack lat R d p (st R) = map (fun c => F (neighbour lat c d)) (face lat r d p).
  Proof.
    intros r d p c0 st F Hr Hd Hc Ho HF R. unfold pack.
    destruct (face_R lat Hv r d c0 Hr Hd Hc) as [HR _]. fold R in HR.
    rewrite send_spec, map_map by auto. unfold R.
    rewrite (send_face_match r d c0 p) by auto. rewrite map_map. apply map_ext_In. intros c Hin.
    fold R. apply HF; auto.
    assert (Hin2 : In (neighbour lat c d) (map (fun c => neighbour lat c d) (filter (off lat r d) (rank_sites lat r)))).
    { apply (in_map (fun c => neighbour lat c d)). apply filter_In.
      destruct p; cbn [face] in Hin; rewrite ?in_app_iff, ?filter_In, ?andb_true_iff in Hin; tauto. }
    rewrite (face_match lat Hv r d c0) in Hin2 by auto. apply filter_In in Hin2. fold R in Hin2.
    apply (proj1 (rank_sites_In lat R _ Hv HR)). tauto.
  Qed.

  Lemma face_In : forall r d p c, is_rank lat r ->
    (In c (face lat r d p) <-> holds lat r c /\ off lat r d c = true /\ has_parity p c).
  Proof.
    intros r d p c Hr. assert (HI := rank_sites_In lat r c Hv Hr).
    destruct p; cbn [face has_parity]; rewrite ?in_app_iff, ?filter_In, ?andb_true_iff, ?site_even_spec, HI;
      destruct (even_site c); intuition; discriminate.
  Qed.

  Definition gather_frame (st st' : Z -> Z -> V) (d : Z) (p : parity) : Prop :=
    forall r k, is_rank lat r ->
      ~ (cn_offset (from_node lat r d) p <= k < cn_offset (from_node lat r d) p + n_sites (from_node lat r d) p) ->
      st' r k = st r k.

  Lemma gather_correct : forall d p (st : Z -> Z -> V) F, is_direction (l_size lat) d ->
    represents lat st F ->
    (forall r c, is_rank lat r -> holds lat r c -> has_parity p c ->
       read_neighbour lat r d (site_index (nodeinfo lat r) c) (gather lat d p st) = F (neighbour lat c d)) /\
    represents lat (gather lat d p st) F /\
    gather_frame st (gather lat d p st) d p.
  Proof.
    intros d p st F Hd HF.
    assert (Hcase : forall r, is_rank lat r ->
      (cn_rank (from_node lat r d) = r /\ gather lat d p st r = st r /\ (forall c, holds lat r c -> off lat r d c = false)) \/
      (exists c0, holds lat r c0 /\ off lat r d c0 = true /\
        gather lat d p st r = store_list (st r) (cn_offset (from_node lat r d) p)
          (map (fun c => F (neighbour lat c d)) (face lat r d p)))).
    { intros r Hr. destruct (existsb (off lat r d) (rank_sites lat r)) eqn:E.
      - right. apply existsb_exists in E. destruct E as (c0 & H1 & H2). apply rank_sites_In in H1; auto.
        exists c0. split; auto. split; auto. unfold gather.
        rewrite (from_node_rank r d c0) by auto.
        assert (Hne := face_R_neq lat Hv r d c0 Hr Hd H1 H2).
        destruct (Z.eqb_spec (node_rank lat (neighbour lat c0 d)) r); [tauto|].
        rewrite (pack_spec r d p c0 st F) by auto. auto.
      - left. assert (Hn : forall c, holds lat r c -> off lat r d c = false).
        { intros c Hc. destruct (off lat r d c) eqn:Eo; auto. exfalso.
          assert (existsb (off lat r d) (rank_sites lat r) = true)
            by (apply existsb_exists; exists c; split; auto; apply rank_sites_In; auto). congruence. }
        assert (Es := from_node_self r d Hr Hd Hn). split; auto. split; auto.
        unfold gather. rewrite Es, Z.eqb_refl. auto. }
    assert (Hfr : gather_frame st (gather lat d p st) d p).
    { intros r k Hr Hk. destruct (Hcase r Hr) as [(_ & E & _)|(c0 & _ & _ & E)]; rewrite E; auto.
      apply store_list_other. rewrite map_length. destruct (from_node_sites r d p Hr Hd) as [E2 _].
      rewrite <- E2. auto. }
    assert (Hloc : forall r k, is_rank lat r -> k < volume (nodeinfo lat r) -> gather lat d p st r k = st r k).
    { intros r k Hr Hk. apply Hfr; auto. destruct (from_node_sites r d EVEN Hr Hd) as [E1 E2].
      assert (Hg := halo_start_ge r d Hr). cbn [n_sites] in E1.
      destruct p; cbn [cn_offset]; rewrite ?E2, ?E1; lia. }
    assert (Hrep : represents lat (gather lat d p st) F).
    { intros r c Hr Hc. rewrite Hloc; auto. apply site_index_bijection; auto. }
    split; [|split; auto].
    intros r c Hr Hc Hp. unfold read_neighbour.
    destruct (off lat r d c) eqn:Eo.
    - destruct (Hcase r Hr) as [(_ & _ & Hn)|(c0 & H1 & H2 & E)]; [rewrite Hn in Eo; [discriminate|auto]|].
      rewrite E. assert (HR := recv_spec r d p Hr Hd).
      assert (Hst := store_list_at (map (fun c => F (neighbour lat c d)) (face lat r d p)) (st r)
                (cn_offset (from_node lat r d) p)).
      rewrite map_length, <- HR, map_map in Hst.
      apply (map_eq_In _ _ _ _ _ Hst). apply face_In; auto.
    - rewrite neighb_local by auto. apply Hrep; auto. apply holds_on_node.
      unfold off in Eo. destruct (is_on_node _ _); [auto|discriminate].
  Qed.

  (** Message matching. *)
  Lemma messages_match : forall d r, is_direction (l_size lat) d -> is_rank lat r ->
    let s := cn_rank (from_node lat r d) in
    s <> r -> is_rank lat s /\ cn_rank (to_node lat s d) = r /\
      forall p, n_sites (to_node lat s d) p = n_sites (from_node lat r d) p.
  Proof.
    intros d r Hd Hr s Hne.
    destruct (existsb (off lat r d) (rank_sites lat r)) eqn:E.
    - apply existsb_exists in E. destruct E as (c0 & H1 & H2). apply rank_sites_In in H1; auto.
      assert (Es : s = node_rank lat (neighbour lat c0 d)) by (apply from_node_rank; auto).
      destruct (face_R lat Hv r d c0 Hr Hd H1) as [HR Hc1]. rewrite <- Es in HR, Hc1.
      destruct (face_back lat Hv r d c0 Hr Hd H1 H2) as [Hb1 Hb2]. rewrite <- Es in Hb1.
      split; auto. split.
      + rewrite (to_node_rank s d (neighbour lat c0 d)) by auto. rewrite Hb2. symmetry.
        apply owner_unique; auto. apply (holds_is_site lat r); auto.
      + intros p. rewrite to_node_sites by auto. destruct (from_node_sites r d p Hr Hd) as [-> _].
        rewrite Es, (send_face_match r d c0 p) by auto. rewrite map_length. auto.
    - exfalso. apply Hne. apply from_node_self; auto. intros c Hc.
      destruct (off lat r d c) eqn:Eo; auto. exfalso.
      assert (existsb (off lat r d) (rank_sites lat r) = true)
        by (apply existsb_exists; exists c; split; auto; apply rank_sites_In; auto). congruence.
  Qed.

  Lemma messages_match_back : forall d s, is_direction (l_size lat) d -> is_rank lat s ->
    let r := cn_rank (to_node lat s d) in
    r <> s -> is_rank lat r /\ cn_rank (from_node lat r d) = s.
  Proof.
    intros d s Hd Hs r Hne. assert (Hd' := oppd_direction d Hd).
    destruct (existsb (off lat s (oppd lat d)) (rank_sites lat s)) eqn:E.
    - apply existsb_exists in E. destruct E as (c0 & H1 & H2). apply rank_sites_In in H1; auto.
      assert (Es : r = node_rank lat (neighbour lat c0 (oppd lat d))) by (apply to_node_rank; auto).
      destruct (face_R lat Hv s (oppd lat d) c0 Hs Hd' H1) as [HR Hc1]. rewrite <- Es in HR, Hc1.
      destruct (face_back lat Hv s (oppd lat d) c0 Hs Hd' H1 H2) as [Hb1 Hb2]. rewrite <- Es in Hb1.
      rewrite oppd_oppd in Hb1, Hb2.
      split; auto. rewrite (from_node_rank r d (neighbour lat c0 (oppd lat d))) by auto.
      rewrite Hb2. symmetry. apply owner_unique; auto. apply (holds_is_site lat s); auto.
    - exfalso. apply Hne. unfold r, to_node. fold (oppd lat d). rewrite dir_tables_run by auto.
      destruct (T_rank lat Hv s (oppd lat d) Hs Hd') as (E1 & _ & E3). rewrite <- E1. apply E3.
      intros c Hc. destruct (off lat s (oppd lat d) c) eqn:Eo; auto. exfalso.
      assert (existsb (off lat s (oppd lat d)) (rank_sites lat s) = true)
        by (apply existsb_exists; exists c; split; auto; apply rank_sites_In; auto). congruence.
  Qed.
End Exchange.
