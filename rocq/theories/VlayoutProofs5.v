(** Vectors of sites and the vectorised neighbour table. *)
From Verif Require Import Common LayoutModel LayoutSpec LayoutProofs1 LayoutProofs2 LayoutProofs4
  LayoutProofs5 LayoutProofs6 LayoutProofs7 VlayoutModel VlayoutSpec VlayoutProofs1 VlayoutProofs2
  VlayoutProofs3 VlayoutProofs4.

Lemma upd_nth_at : forall k f l, upd_nth k f l = upd_at k f l.
Proof. induction k; destruct l; simpl; auto. rewrite IHk. auto. Qed.

Lemma nth_zeros : forall (l : list Z) k, nth k (map (fun _ : Z => 0) l) 0 = 0.
Proof. induction l; intros [|k]; cbn [map nth]; auto. Qed.

(** The position of an element in a filtered range. *)
Lemma filter_position : forall (P : Z -> bool) k u, 0 <= u < Z.of_nat k -> P u = true ->
  (length (filter P (zrange 0 (Z.to_nat u))) < length (filter P (zrange 0 k)))%nat /\
  nth (length (filter P (zrange 0 (Z.to_nat u)))) (filter P (zrange 0 k)) 0 = u.
Proof.
  intros P k u Hu HP. replace k with (Z.to_nat u + S (k - Z.to_nat u - 1))%nat by lia.
  rewrite zrange_app, filter_app. cbn [zrange]. rewrite Z.add_0_l, Z2Nat.id by lia. cbn [filter]. rewrite HP.
  rewrite app_length. cbn [length]. split; [lia|]. rewrite app_nth2, Nat.sub_diag by lia. auto.
Qed.

Section Vectors.
  Variable v : vlattice.
  Hypothesis Hvv : valid_vlattice v.
  Variable dbl : bool.
  Let lat := vl_lat v.
  Let Hv : valid_lattice lat := vv_valid v Hvv.
  Let ls := l_size lat.
  Let n := length ls.
  Let W := vector_size v dbl.
  Lemma Wpos : 0 < W. Proof. exact (proj2 (W_prod v Hvv dbl)). Qed.

  Lemma min_holds : forall r, is_rank lat r -> holds lat r (n_min (nodeinfo lat r)).
  Proof.
    intros r Hr. destruct (rank_lens v Hvv r) as [L1 L2]. unfold mnr, szr in L1, L2. fold lat in L1, L2.
    fold ls in L1, L2. fold n in L1, L2. split; auto. split; [lia|]. intros j Hj. rewrite L1 in Hj.
    destruct (ssr_nth v Hvv r j Hr Hj) as (_ & H1 & H2 & _ & H3). unfold szr in H2. fold lat in H2. nia.
  Qed.

  Lemma lane_zero : forall r c, is_rank lat r -> holds lat r c ->
    (lane v dbl r c = 0 <-> forall j, (j < n)%nat -> subnode_of v dbl r c j = 0).
  Proof.
    intros r c Hr Hc. assert (Hm := min_holds r Hr).
    assert (E0 : forall j, (j < n)%nat -> subnode_of v dbl r (n_min (nodeinfo lat r)) j = 0).
    { intros j Hj. unfold subnode_of. fold lat. rewrite Z.sub_diag. apply Zdiv_0_l. }
    assert (L0 : lane v dbl r (n_min (nodeinfo lat r)) = 0).
    { unfold lane, lam.
      assert (Ed : dig v r (n_min (nodeinfo lat r)) = map (fun _ => 0) (vl_div v)).
      { apply nth_ext with (d := 0) (d' := 0).
        - rewrite (dig_len v Hvv r _ Hr Hm), map_length. symmetry. apply (vv_len v Hvv).
        - rewrite (dig_len v Hvv r _ Hr Hm). intros j Hj.
          destruct (dig_nth v Hvv r _ j Hr Hm Hj) as [E _]. rewrite E. unfold mnr. fold lat.
          rewrite Z.sub_diag, Zdiv_0_l. symmetry.
          apply nth_zeros. }
      rewrite Ed.
      assert (En : nth (vl_merged v) (map (fun _ : Z => 0) (vl_div v)) 0 = 0).
      { apply nth_zeros. }
      rewrite En. assert (Et : (if dbl then 0 / 2 else swz (nth (vl_merged v) (vl_div v) 0) 0) = 0) by (destruct dbl; auto).
      rewrite Et. apply lanef_zero. }
    rewrite <- L0. rewrite (lane_subnode v Hvv) by auto.
    split; intros H j Hj; specialize (H j Hj); specialize (E0 j Hj); congruence.
  Qed.

  Lemma bnd_place : forall r d c c', is_rank lat r -> is_direction ls d -> same_place v dbl r c c' ->
    bnd v dbl d r c = bnd v dbl d r c'.
  Proof. intros r d c c' Hr Hd Hp. unfold bnd. rewrite (Hp _ (a_lt v d Hd)). auto. Qed.

  Section OneDir.
    Variables (r d : Z).
    Hypothesis Hr : is_rank lat r.
    Hypothesis Hd : is_direction ls d.
    Let ni := nodeinfo lat r.
    Let vs := v_sites v dbl ni.
    Let a := axis n d.
    Let t := sgn n d.
    Let nb c := neighbour lat c d.
    Let own c := node_rank lat (nb c).

    Lemma vs_facts : 0 <= vs /\ vs * W = volume ni.
    Proof. destruct (v_sites_eq v Hvv dbl r Hr) as (E & _ & H). auto. Qed.

    (** The first site of vector [u]. *)
    Definition vc (u : Z) : list Z := vcoordinates v ni (W * u).

    Lemma vc_spec : forall u, 0 <= u < vs ->
      holds lat r (vc u) /\ vec v dbl r (vc u) = u /\ lane v dbl r (vc u) = 0 /\
      (forall j, (j < n)%nat -> subnode_of v dbl r (vc u) j = 0).
    Proof.
      intros u Hu. destruct vs_facts as [H0 H1]. assert (HW := Wpos).
      destruct (crd_spec v Hvv r (W * u) Hr ltac:(fold lat; fold ni; nia)) as [Hh E].
      fold lat in Hh, E. fold ni in E. fold (vc u) in Hh, E.
      destruct (index_div v Hvv dbl r (vc u) Hr Hh) as [E1 E2]. fold lat in E1, E2. fold ni in E1, E2.
      fold ni in Hh. fold (vc u) in Hh. rewrite E in E1, E2. fold W in E1, E2.
      rewrite Z.mul_comm, Z.div_mul in E1 by lia. rewrite Z.mul_comm, Z.mod_mul in E2 by lia.
      split; [auto|]. split; [auto|]. split; [auto|]. apply lane_zero; auto.
    Qed.

    (** The boundary test is a property of the vector. *)
    Definition halo (u : Z) : bool := bnd v dbl d r (vc u).

    Lemma bnd_halo : forall c, holds lat r c -> bnd v dbl d r c = halo (vec v dbl r c).
    Proof.
      intros c Hc. destruct (vc_spec (vec v dbl r c) (vec_range v Hvv dbl r c Hr Hc)) as (H1 & H2 & _).
      apply bnd_place; auto. apply (vec_place v Hvv); auto.
    Qed.

    Lemma own_spec : forall c, holds lat r c -> is_rank lat (own c) /\ holds lat (own c) (nb c).
    Proof. intros c Hc. apply (g_owner v Hvv r d Hr Hd c Hc). Qed.

    Lemma nb_lane_in : forall c, holds lat r c -> bnd v dbl d r c = false ->
      own c = r /\ lane v dbl r (nb c) = lane v dbl r c.
    Proof.
      intros c Hc Hb. destruct (own_spec c Hc) as [HR HcR].
      destruct (g_axis v Hvv dbl r d Hr Hd c Hc) as [G _]. destruct (G Hb) as (Ho & Eq & _).
      assert (Eo : own c = r) by (apply (g_same_rank v Hvv r d Hr Hd c Hc Ho)). split; auto.
      rewrite Eo in HcR. apply (lane_subnode v Hvv); auto. intros j Hj.
      change (node_rank (vl_lat v) (neighbour (vl_lat v) c d)) with (own c) in Eq.
      destruct (Nat.eq_dec j a) as [->|Hja].
      - rewrite Eo in Eq. exact Eq.
      - destruct (g_other v Hvv dbl r d Hr Hd c Hc j Hj Hja) as (_ & E & _).
        change (node_rank (vl_lat v) (neighbour (vl_lat v) c d)) with (own c) in E. rewrite Eo in E. exact E.
    Qed.

    (** Neighbours of one vector that live on one rank form one vector there. *)
    Lemma nb_vec : forall c c', holds lat r c -> holds lat r c' -> own c = own c' ->
      vec v dbl r c = vec v dbl r c' -> vec v dbl (own c) (nb c) = vec v dbl (own c) (nb c').
    Proof.
      intros c c' Hc Hc' Eo Ev. destruct (own_spec c Hc) as [HR H1]. destruct (own_spec c' Hc') as [_ H2].
      rewrite <- Eo in H2. apply (vec_place v Hvv); auto. apply (vec_place v Hvv) in Ev; auto.
      assert (Eb := bnd_place r d c c' Hr Hd Ev). intros j Hj.
      destruct (Nat.eq_dec j a) as [->|Hja].
      - destruct (g_axis v Hvv dbl r d Hr Hd c Hc) as [G1 G2].
        destruct (g_axis v Hvv dbl r d Hr Hd c' Hc') as [G1' G2'].
        change (node_rank (vl_lat v) (neighbour (vl_lat v) c d)) with (own c) in G1, G2.
        change (node_rank (vl_lat v) (neighbour (vl_lat v) c' d)) with (own c') in G1', G2'.
        rewrite <- Eo in G1', G2'. specialize (Ev a Hj).
        destruct (bnd v dbl d r c) eqn:B.
        + destruct (G2 eq_refl) as (_ & _ & P1). destruct (G2' (eq_sym Eb)) as (_ & _ & P2).
          etransitivity; [exact P1|]. symmetry. exact P2.
        + destruct (G1 eq_refl) as (_ & _ & P1). destruct (G1' (eq_sym Eb)) as (_ & _ & P2).
          etransitivity; [exact P1|]. symmetry. etransitivity; [exact P2|].
          exact (f_equal (fun z => z + t) (eq_sym Ev)).
      - destruct (g_other v Hvv dbl r d Hr Hd c Hc j Hj Hja) as (_ & _ & P1).
        destruct (g_other v Hvv dbl r d Hr Hd c' Hc' j Hj Hja) as (_ & _ & P2).
        change (node_rank (vl_lat v) (neighbour (vl_lat v) c d)) with (own c) in P1.
        change (node_rank (vl_lat v) (neighbour (vl_lat v) c' d)) with (own c') in P2.
        rewrite <- Eo in P2. etransitivity; [exact P1|]. symmetry. etransitivity; [exact P2|].
        symmetry. apply Ev. auto.
    Qed.

    (** Lane of the neighbour of a boundary site: a function of the lane alone. *)
    Lemma nb_lane_bnd : forall c c', holds lat r c -> holds lat r c' ->
      bnd v dbl d r c = true -> bnd v dbl d r c' = true ->
      lane v dbl r c = lane v dbl r c' -> lane v dbl (own c) (nb c) = lane v dbl (own c') (nb c').
    Proof.
      intros c c' Hc Hc' Hb Hb' El. destruct (own_spec c Hc) as [HR H1]. destruct (own_spec c' Hc') as [HR' H2].
      apply (lane_subnode v Hvv); auto. assert (Es := proj1 (lane_subnode v Hvv dbl r c r c' Hr Hc Hr Hc') El).
      intros j Hj. destruct (Nat.eq_dec j a) as [->|Hja].
      - destruct (g_axis v Hvv dbl r d Hr Hd c Hc) as [_ G2].
        destruct (g_axis v Hvv dbl r d Hr Hd c' Hc') as [_ G2'].
        destruct (G2 Hb) as (_ & Q1 & _). destruct (G2' Hb') as (_ & Q2 & _).
        etransitivity; [exact Q1|]. symmetry. etransitivity; [exact Q2|].
        fold lat ls n a. rewrite (Es a Hj). auto.
      - destruct (g_other v Hvv dbl r d Hr Hd c Hc j Hj Hja) as (_ & P1 & _).
        destruct (g_other v Hvv dbl r d Hr Hd c' Hc' j Hj Hja) as (_ & P2 & _).
        etransitivity; [exact P1|]. symmetry. etransitivity; [exact P2|]. symmetry. apply Es. auto.
    Qed.

    Lemma nth_subnode_size : forall j, (j < n)%nat ->
      nth j (subnode_size v dbl ni) 0 = sub_extent v dbl r j.
    Proof.
      intros j Hj. rewrite (sub_extent_eq v Hvv) by auto. unfold subnode_size.
      change (subsize v ni) with (ssr v r). destruct dbl; cbn [andb]; [|lia].
      rewrite upd_nth_at, nth_upd_at by (rewrite (ssr_len v Hvv); apply (vv_m v Hvv)).
      destruct (Nat.eqb_spec j (vl_merged v)) as [->|]; lia.
    Qed.

    Lemma subnode_size_len : length (subnode_size v dbl ni) = n.
    Proof.
      unfold subnode_size. change (subsize v ni) with (ssr v r).
      destruct dbl; rewrite ?upd_nth_at, ?upd_at_length; apply (ssr_len v Hvv).
    Qed.

    Lemma nth_subdivisions : forall j, (j < n)%nat -> nth j (subdivisions v dbl) 0 = nsub v dbl j.
    Proof.
      intros j Hj. unfold subdivisions, nsub. destruct dbl; cbn [andb]; [|rewrite Z.div_1_r; auto].
      rewrite upd_nth_at, nth_upd_at by (rewrite (vv_len v Hvv); apply (vv_m v Hvv)).
      destruct (Nat.eqb_spec j (vl_merged v)) as [->|]; auto. rewrite Z.div_1_r. auto.
    Qed.

    Lemma is_perm_nsub : is_permutation v dbl d = (1 <? nsub v dbl a).
    Proof.
      unfold is_permutation. fold lat ls n. fold (axis n d). fold a.
      rewrite nth_subdivisions by (apply a_lt; auto). auto.
    Qed.

    Lemma only_local_spec : only_local v dbl d = (nth a (n_divisions lat) 0 =? 1) && negb (1 <? nsub v dbl a).
    Proof. unfold only_local. fold lat ls n. fold (axis n d). fold a. rewrite is_perm_nsub. auto. Qed.

    (** Being in the box of the first subnode. *)
    Lemma first_subnode : forall c, is_site ls c ->
      (in_box (n_min ni) (subnode_size v dbl ni) c = true <->
       holds lat r c /\ forall j, (j < n)%nat -> subnode_of v dbl r c j = 0).
    Proof.
      intros c [Hl Hs]. fold n in Hl.
      destruct (rank_lens v Hvv r) as [L1 L2]. unfold mnr, szr in L1, L2. fold lat in L1, L2.
      fold ls in L1, L2. fold n in L1, L2. fold ni in L1, L2.
      rewrite <- in_region_box. split.
      - intros (_ & _ & H). rewrite Hl in H.
        assert (Hh : holds lat r c).
        { split; [fold ni; lia|]. split; [fold ni; lia|]. rewrite Hl. intros j Hj. specialize (H j Hj).
          rewrite nth_subnode_size in H by auto.
          destruct (ext_facts v Hvv dbl r j Hr Hj) as (E1 & E2 & E3). fold lat in E3. fold ni in E3 |- *. nia. }
        split; auto. intros j Hj. specialize (H j Hj). rewrite nth_subnode_size in H by auto.
        unfold subnode_of. fold lat. fold ni. apply Z.div_small. lia.
      - intros [Hh H]. split; [lia|]. split; [rewrite subnode_size_len; auto|]. rewrite Hl. intros j Hj.
        rewrite nth_subnode_size by auto.
        destruct (sub_place v Hvv dbl r c j Hr Hh Hj) as (E & Hp & _). fold lat in E. fold ni in E.
        rewrite (H j Hj) in E. lia.
    Qed.

    (** lv.h 209-231 selects exactly the vectors with a neighbour outside the subnode. *)
    Lemma goes_to_halo_spec : forall u, 0 <= u < vs -> goes_to_halo v dbl r d u = halo u.
    Proof.
      intros u Hu. destruct (vc_spec u Hu) as (Hc & _ & _ & Hz).
      unfold goes_to_halo, is_on_first_subnode. fold lat. fold ni. fold W. fold (vc u). fold ls. fold n.
      change (cmod (add_dir (vc u) d) ls) with (nb (vc u)). fold (axis n d). fold a.
      assert (Ha : (a < n)%nat) by (apply a_lt; auto).
      assert (Hs1 : is_site ls (nb (vc u))) by (apply (g_site1 v Hvv r d Hr Hd _ Hc)).
      destruct (g_axis v Hvv dbl r d Hr Hd (vc u) Hc) as [G1 G2]. fold lat ls n in G1, G2. fold a in G1, G2.
      fold t in G1, G2. change (node_rank lat (neighbour lat (vc u) d)) with (own (vc u)) in G1, G2.
      fold (nb (vc u)) in G1, G2. rewrite (Hz a Ha) in G1, G2.
      destruct (sub_place v Hvv dbl r (vc u) a Hr Hc Ha) as (Ex & Hp & _). rewrite (Hz a Ha) in Ex.
      fold lat in Ex. fold ni in Ex.
      destruct (box_facts v Hvv r (vc u) a Hr Hc Ha) as (_ & _ & B3 & B4). fold lat in B3, B4. fold ls ni in B3, B4.
      destruct (ext_facts v Hvv dbl r a Hr Ha) as (Xe & XN & XS). fold lat in XS. fold ni in XS.
      unfold halo. destruct (bnd v dbl d r (vc u)) eqn:Hb.
      - destruct (G2 eq_refl) as (Ho & Eq & _).
        destruct (in_box _ _ _) eqn:Ein; auto. apply first_subnode in Ein; auto. destruct Ein as [Hh1 Hz1].
        assert (Hon : off lat r d (vc u) = false).
        { unfold off. fold (nb (vc u)). apply holds_on_node in Hh1. rewrite Hh1. auto. }
        assert (Eo : own (vc u) = r) by (apply (g_same_rank v Hvv r d Hr Hd _ Hc Hon)).
        rewrite Eo in Eq. rewrite (Hz1 a Ha) in Eq.
        assert (EN : nsub v dbl a = 1).
        { destruct (Z.eq_dec (nsub v dbl a) 1) as [|Hne]; auto. exfalso.
          destruct (sgn_cases n d) as [Et|Et]; fold t in Et; rewrite Et in Eq.
          - rewrite Z.mod_small in Eq by lia. lia.
          - assert (E' : (0 + -1) mod nsub v dbl a = nsub v dbl a - 1) by (symmetry; apply Z.mod_unique with (-1); lia).
            lia. }
        rewrite Hon, EN in Ho.
        assert (Hnd : nth a (n_divisions lat) 0 = 1).
        { destruct (Z.eqb_spec (nth a (n_divisions lat) 0) 1); auto. cbn [negb andb] in Ho.
          destruct (sgn_cases n d) as [Et|Et]; fold t in Et; rewrite Et in Ho; discriminate. }
        rewrite only_local_spec, EN, Hnd. cbn [Z.eqb Pos.eqb Z.ltb Z.compare Pos.compare Pos.compare_cont negb andb].
        destruct (B3 Hnd) as [M1 M2]. rewrite EN in XS. unfold bnd in Hb. fold lat ls n a t in Hb.
        unfold t, sgn in Hb. 
        assert (Hopp : is_up_dir (Z.of_nat n) (opp_dir (Z.of_nat n) d) = negb (is_up_dir (Z.of_nat n) d)).
        { unfold is_up_dir, opp_dir. unfold is_direction in Hd. fold n in Hd. lia. }
        rewrite Hopp. destruct (is_up_dir (Z.of_nat n) d); cbn [negb andb orb]; lia.
      - destruct (G1 eq_refl) as (Ho & Eq & Ep).
        assert (Eo : own (vc u) = r) by (apply (g_same_rank v Hvv r d Hr Hd _ Hc Ho)).
        destruct (own_spec (vc u) Hc) as [_ Hh1]. rewrite Eo in Hh1, Eq.
        assert (Ein : in_box (n_min ni) (subnode_size v dbl ni) (nb (vc u)) = true).
        { apply first_subnode; auto. split; auto. intros j Hj.
          destruct (Nat.eq_dec j a) as [->|Hja]; auto.
          destruct (g_other v Hvv dbl r d Hr Hd (vc u) Hc j Hj Hja) as (_ & E & _).
          change (node_rank (vl_lat v) (neighbour (vl_lat v) (vc u) d)) with (own (vc u)) in E.
          rewrite Eo in E. etransitivity; [exact E|]. auto. }
        rewrite Ein, only_local_spec.
        destruct (Z.eqb_spec (nth a (n_divisions lat) 0) 1) as [Hnd|]; cbn [andb]; auto.
        destruct (Z.ltb_spec 1 (nsub v dbl a)) as [|HN]; cbn [negb andb]; auto.
        destruct (B3 Hnd) as [M1 M2]. assert (EN : nsub v dbl a = 1) by lia. rewrite EN in XS.
        unfold bnd in Hb. fold lat ls n a t in Hb. unfold t, sgn in Hb. apply negb_false_iff in Hb.
        assert (Hopp : is_up_dir (Z.of_nat n) (opp_dir (Z.of_nat n) d) = negb (is_up_dir (Z.of_nat n) d)).
        { unfold is_up_dir, opp_dir. unfold is_direction in Hd. fold n in Hd. lia. }
        rewrite Hopp. destruct (is_up_dir (Z.of_nat n) d); cbn [negb andb orb]; lia.
    Qed.

    (** ** The neighbour table *)
    Definition before (u : Z) : Z := cnt halo (zrange 0 (Z.to_nat u)).

    Lemma neighbours_fold : forall k c0, (Z.of_nat k <= vs) ->
      let s := fold_left (neighbours_step v dbl r d) (zrange 0 k) (c0, fun _ => 0) in
      fst s = c0 + cnt halo (zrange 0 k) /\
      forall u, 0 <= u < Z.of_nat k ->
        snd s u = if halo u then c0 + before u else vneighb v r d (W * u) / W.
    Proof.
      induction k; intros c0 Hk; [cbn; split; [lia|intros; lia]|].
      replace (S k) with (k + 1)%nat by lia. rewrite zrange_app. cbn [zrange]. rewrite fold_left_app.
      destruct (IHk c0 ltac:(lia)) as [E1 E2].
      set (s := fold_left (neighbours_step v dbl r d) (zrange 0 k) (c0, fun _ => 0)) in *.
      cbn [fold_left]. rewrite Z.add_0_l. unfold neighbours_step. rewrite goes_to_halo_spec by lia.
      unfold cnt. rewrite filter_app, app_length. cbn [filter]. unfold cnt in E1. split.
      - destruct (halo (Z.of_nat k)); cbn [fst length]; lia.
      - intros u Hu. destruct (Z.eq_dec u (Z.of_nat k)) as [->|Hne].
        + destruct (halo (Z.of_nat k)); cbn [snd]; rewrite zupd_same; [|fold W; auto].
          rewrite E1. unfold before, cnt. rewrite Nat2Z.id. auto.
        + destruct (halo (Z.of_nat k)); cbn [snd]; rewrite zupd_other by auto; apply E2; lia.
    Qed.

    Definition ho : Z := halo_offset v dbl r d.
    Definition hvs : list Z := filter halo (zrange 0 (Z.to_nat vs)).

    Lemma neighbours_spec :
      n_halo_vectors v dbl r d = Z.of_nat (length hvs) /\
      forall u, 0 <= u < vs ->
        neighbours v dbl r d u = if halo u then ho + before u else vneighb v r d (W * u) / W.
    Proof.
      destruct vs_facts as [H0 _]. unfold n_halo_vectors, neighbours, neighbours_dir. fold lat. fold ni. fold vs. fold ho.
      destruct (neighbours_fold (Z.to_nat vs) ho ltac:(lia)) as [E1 E2]. rewrite Z2Nat.id in E2 by lia.
      split; auto. rewrite E1. unfold hvs, cnt. lia.
    Qed.

    (** The neighbour inside the subnode. *)
    Lemma inner_neighbour : forall c, holds lat r c -> bnd v dbl d r c = false ->
      neighbours v dbl r d (vec v dbl r c) * W + lane v dbl r c = vsite_index v ni (nb c).
    Proof.
      intros c Hc Hb. assert (Hu := vec_range v Hvv dbl r c Hr Hc). fold lat in Hu. fold ni vs in Hu.
      destruct (vc_spec _ Hu) as (Hc0 & Ev & _). assert (Hb0 := Hb). rewrite bnd_halo in Hb0 by auto.
      destruct neighbours_spec as [_ Hn]. rewrite (Hn _ Hu), Hb0.
      destruct (nb_lane_in c Hc Hb) as [Eo El]. destruct (nb_lane_in (vc (vec v dbl r c)) Hc0 Hb0) as [Eo0 _].
      destruct vs_facts as [_ HW]. assert (HWp := Wpos).
      assert (Hin : In (W * vec v dbl r c) (vI v r)) by (apply (vI_In v Hvv); auto; fold lat ni; nia).
      destruct (g_axis v Hvv dbl r d Hr Hd _ Hc0) as [G _]. destruct (G Hb0) as (Ho & _).
      rewrite (proj1 (vneighb_spec v Hvv r d _ Hr Hd Hin)) by exact Ho.
      unfold vnb, vcrd. fold lat ni. fold (vc (vec v dbl r c)). fold (nb (vc (vec v dbl r c))).
      destruct (own_spec c Hc) as [_ H1]. destruct (own_spec _ Hc0) as [_ H2]. rewrite Eo in H1. rewrite Eo0 in H2.
      destruct (index_div v Hvv dbl r _ Hr H2) as [E _].
      etransitivity; [|symmetry; exact (index_vec_lane v Hvv dbl r _ Hr H1)]. rewrite El. fold W.
      apply (f_equal (fun z => z * W + lane v dbl r c)). etransitivity; [exact E|]. assert (Q := nb_vec c _ Hc Hc0 ltac:(congruence) (eq_sym Ev)). rewrite Eo in Q. auto.
    Qed.
  End OneDir.
End Vectors.
