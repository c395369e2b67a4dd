(** Subnode and place of the neighbour of a site. *)
From Verif Require Import Common LayoutModel LayoutSpec LayoutProofs1 LayoutProofs2 LayoutProofs4
  LayoutProofs5 LayoutProofs6 LayoutProofs7 VlayoutModel VlayoutSpec VlayoutProofs1 VlayoutProofs2 VlayoutProofs3.

Lemma div_mod_of : forall x e k p, 0 <= p < e -> x = k * e + p -> x / e = k /\ x mod e = p.
Proof.
  intros x e k p Hp E. split; [symmetry; apply Z.div_unique with p|symmetry; apply Z.mod_unique with k]; lia.
Qed.

Section Geometry.
  Variable v : vlattice.
  Hypothesis Hvv : valid_vlattice v.
  Variable dbl : bool.
  Let lat := vl_lat v.
  Let Hv : valid_lattice lat := vv_valid v Hvv.
  Let ls := l_size lat.
  Let n := length ls.

  Definition nsub (j : nat) : Z :=
    nth j (vl_div v) 0 / (if dbl && (j =? vl_merged v)%nat then 2 else 1).

  Lemma ext_facts : forall q j, is_rank lat q -> (j < n)%nat ->
    0 < sub_extent v dbl q j /\ 0 < nsub j /\
    nth j (n_siz (nodeinfo lat q)) 0 = nsub j * sub_extent v dbl q j.
  Proof.
    intros q j Hq Hj. rewrite (sub_extent_eq v Hvv) by auto. unfold nsub.
    destruct (ssr_nth v Hvv q j Hq Hj) as (_ & H1 & H2 & _ & H3). unfold szr in H2. fold lat in H2. rewrite H2.
    assert (Hb := vv_b v Hvv).
    destruct (Nat.eqb_spec j (vl_merged v)) as [->|]; [|rewrite andb_false_r, Z.div_1_r; repeat split; lia].
    destruct dbl; cbn [andb]; [|rewrite Z.div_1_r; repeat split; lia].
    set (b := nth (vl_merged v) (vl_div v) 0) in *. assert (b = 2 * (b / 2)) by lia.
    repeat split; nia.
  Qed.

  Lemma sub_place : forall q c j, is_rank lat q -> holds lat q c -> (j < n)%nat ->
    nth j c 0 - nth j (n_min (nodeinfo lat q)) 0 =
      subnode_of v dbl q c j * sub_extent v dbl q j + place_in_subnode v dbl q c j /\
    0 <= place_in_subnode v dbl q c j < sub_extent v dbl q j /\
    0 <= subnode_of v dbl q c j < nsub j.
  Proof.
    intros q c j Hq Hc Hj. destruct (ext_facts q j Hq Hj) as (H1 & H2 & H3).
    destruct (holds_is_site lat q c Hv Hq Hc) as [Hl _]. destruct Hc as (Hl1 & Hl2 & Hc).
    specialize (Hc j ltac:(rewrite Hl; auto)). fold lat in Hc.
    unfold subnode_of, place_in_subnode. fold lat.
    set (x := nth j c 0 - nth j (n_min (nodeinfo lat q)) 0) in *. set (e := sub_extent v dbl q j) in *.
    assert (D := Z.div_mod x e ltac:(lia)). assert (B := Z.mod_pos_bound x e H1).
    split; [lia|]. split; [auto|]. split; [apply Z.div_pos; lia|]. apply Z.div_lt_upper_bound; lia.
  Qed.

  Lemma sub_place_of : forall q c j k p, is_rank lat q -> (j < n)%nat ->
    0 <= p < sub_extent v dbl q j ->
    nth j c 0 - nth j (n_min (nodeinfo lat q)) 0 = k * sub_extent v dbl q j + p ->
    subnode_of v dbl q c j = k /\ place_in_subnode v dbl q c j = p.
  Proof. intros. apply div_mod_of; auto. Qed.

  (** A direction not divided between ranks, and one that is. *)
  Lemma box_facts : forall q c j, is_rank lat q -> holds lat q c -> (j < n)%nat ->
    0 <= nth j (n_min (nodeinfo lat q)) 0 /\
    nth j (n_min (nodeinfo lat q)) 0 + nth j (n_siz (nodeinfo lat q)) 0 <= nth j ls 0 /\
    (nth j (n_divisions lat) 0 = 1 -> nth j (n_min (nodeinfo lat q)) 0 = 0 /\
                                      nth j (n_siz (nodeinfo lat q)) 0 = nth j ls 0) /\
    (nth j (n_divisions lat) 0 <> 1 -> nth j (n_siz (nodeinfo lat q)) 0 < nth j ls 0).
  Proof.
    intros q c j Hq Hc Hj. destruct (box_nth lat Hv q c j Hq Hc Hj) as [E1 E2]. rewrite E1, E2.
    destruct (grid_nth_pos lat Hv j Hj) as [HL Hn].
    assert (Hle : nth j (n_divisions lat) 0 <= nth j ls 0) by (apply Hvv; auto).
    destruct (holds_is_site lat q c Hv Hq Hc) as [_ Hx]. specialize (Hx j Hj).
    fold ls in E1, E2, HL, Hx |- *. set (L := nth j ls 0) in *. set (nd := nth j (n_divisions lat) 0) in *.
    set (x := nth j c 0) in *. set (k := x * nd / L) in *.
    assert (Hk : 0 <= k < nd).
    { unfold k. split; [apply Z.div_pos; nia|apply Z.div_lt_upper_bound; nia]. }
    assert (B0 := cdiv_nonneg L nd k HL Hn ltac:(lia)).
    assert (B1 : cdiv L nd (k + 1) <= L) by (apply cdiv_ge; auto; nia).
    repeat split; try lia.
    - assert (k = 0) by lia. rewrite H0. apply cdiv_0.
    - assert (Hk0 : k = 0) by lia. rewrite Hk0. rewrite cdiv_0. rewrite H. cbn [Z.add]. rewrite cdiv_n by lia. lia.
    - intros Hnd. assert (C := proj1 (cdiv_ge L nd k (cdiv L nd k) Hn) ltac:(lia)).
      assert (C1 : cdiv L nd (k + 1) <= cdiv L nd k + (L - 1)) by (apply cdiv_ge; auto; nia). lia.
  Qed.

  Variables (r d : Z).
  Hypothesis Hr : is_rank lat r.
  Hypothesis Hd : is_direction ls d.
  Let a := axis n d.
  Let t := sgn n d.

  Lemma a_lt : (a < n)%nat.
  Proof. apply axis_lt. auto. Qed.

  (** Is the neighbour of a site outside its own subnode? *)
  Definition bnd (q : Z) (c : list Z) : bool :=
    negb ((0 <=? place_in_subnode v dbl q c a + t) && (place_in_subnode v dbl q c a + t <? sub_extent v dbl q a)).

  Variable c : list Z.
  Hypothesis Hc : holds lat r c.
  Let c1 := neighbour lat c d.
  Let R := node_rank lat c1.

  Lemma g_site : is_site ls c. Proof. apply (holds_is_site lat r); auto. Qed.
  Lemma g_site1 : is_site ls c1. Proof. apply nbr_site; first [apply valid_pos; auto | apply g_site | auto]. Qed.

  Lemma g_owner : is_rank lat R /\ holds lat R c1.
  Proof. destruct (owner_unique lat c1 Hv g_site1) as [H1 H2]. split; auto. apply H2; auto. Qed.

  Lemma g_nth : forall j, (j < n)%nat ->
    nth j c1 0 = if (j =? a)%nat then (nth a c 0 + t) mod nth a ls 0 else nth j c 0.
  Proof.
    intros j Hj. unfold c1, neighbour. fold ls.
    rewrite nbr_upd by (first [apply valid_pos; auto | apply g_site | auto]).
    rewrite nth_upd_at by (destruct g_site as [-> _]; apply a_lt). reflexivity.
  Qed.

  Lemma g_same_box : forall j, (j < n)%nat -> j <> a ->
    nth j (n_min (nodeinfo lat R)) 0 = nth j (n_min (nodeinfo lat r)) 0 /\
    nth j (n_siz (nodeinfo lat R)) 0 = nth j (n_siz (nodeinfo lat r)) 0.
  Proof.
    intros j Hj Hja. destruct g_owner as [HR Hc1].
    destruct (box_nth lat Hv r c j Hr Hc Hj) as [E1 E2]. destruct (box_nth lat Hv R c1 j HR Hc1 Hj) as [E3 E4].
    rewrite g_nth in E3, E4 by auto. destruct (Nat.eqb_spec j a); [tauto|]. split; congruence.
  Qed.

  Lemma g_other : forall j, (j < n)%nat -> j <> a ->
    sub_extent v dbl R j = sub_extent v dbl r j /\
    subnode_of v dbl R c1 j = subnode_of v dbl r c j /\
    place_in_subnode v dbl R c1 j = place_in_subnode v dbl r c j.
  Proof.
    intros j Hj Hja. destruct (g_same_box j Hj Hja) as [E1 E2].
    assert (Ee : sub_extent v dbl R j = sub_extent v dbl r j) by (unfold sub_extent; fold lat; rewrite E2; auto).
    unfold subnode_of, place_in_subnode. fold lat. rewrite Ee, E1, g_nth by auto.
    destruct (Nat.eqb_spec j a); tauto.
  Qed.

  Lemma g_same_rank : off lat r d c = false -> R = r.
  Proof.
    intros Ho. symmetry. apply (owner_unique lat c1 Hv g_site1); auto. apply holds_on_node.
    unfold off in Ho. fold c1 in Ho. destruct (is_on_node _ c1); auto; discriminate.
  Qed.

  Lemma g_off_iff : off lat r d c = negb ((0 <=? nth a c1 0 - nth a (n_min (nodeinfo lat r)) 0) &&
     (nth a c1 0 - nth a (n_min (nodeinfo lat r)) 0 <? nth a (n_siz (nodeinfo lat r)) 0)).
  Proof.
    rewrite (off_axis lat Hv r c d Hr Hc Hd). fold ls. fold n. fold a t. unfold off_iv.
    rewrite g_nth, Nat.eqb_refl by apply a_lt. auto.
  Qed.

  (** Coordinate of the off-node neighbour within its own rank. *)
  Lemma g_off_edge : off lat r d c = true ->
    nth a c1 0 - nth a (n_min (nodeinfo lat R)) 0 =
      if t =? 1 then 0 else nth a (n_siz (nodeinfo lat R)) 0 - 1.
  Proof.
    intros Ho. destruct g_owner as [HR Hc1]. assert (Ha := a_lt).
    destruct (box_facts R c1 a HR Hc1 Ha) as (B1 & B2 & _).
    assert (Hne : R <> r) by (apply (face_R_neq lat Hv r d c); auto).
    assert (Hnot : ~ (nth a (n_min (nodeinfo lat R)) 0 <= nth a c 0 <
      nth a (n_min (nodeinfo lat R)) 0 + nth a (n_siz (nodeinfo lat R)) 0)).
    { intros Hin. apply Hne. 
      assert (HcR : holds lat R c).
      { destruct (rank_lens v Hvv R) as [L1 L2]. destruct g_site as [Hl _].
        unfold mnr, szr in L1, L2. fold lat in L1, L2. fold ls in L1, L2. fold n in L1, L2.
        split; [rewrite L1; auto|]. split; [rewrite L2; auto|]. rewrite Hl. intros j Hj.
        destruct (Nat.eq_dec j a) as [->|Hja]; auto. destruct (g_same_box j Hj Hja) as [-> ->].
        apply Hc. rewrite Hl. auto. }
      destruct (owner_unique lat c Hv g_site) as [_ Hu].
      transitivity (node_rank lat c); [|symmetry]; apply (Hu _); auto. }
    assert (Hx1 : nth a (n_min (nodeinfo lat R)) 0 <= nth a c1 0 <
      nth a (n_min (nodeinfo lat R)) 0 + nth a (n_siz (nodeinfo lat R)) 0).
    { apply Hc1. destruct g_site1 as [-> _]. auto. }
    destruct g_site as [_ Hx]. specialize (Hx a Ha). assert (HL : 0 < nth a ls 0) by lia.
    assert (E : nth a c1 0 = (nth a c 0 + t) mod nth a ls 0) by (rewrite g_nth, Nat.eqb_refl by auto; auto).
    set (x := nth a c 0) in *. set (y := nth a c1 0) in *. set (L := nth a ls 0) in *.
    set (mm := nth a (n_min (nodeinfo lat R)) 0) in *. set (ss := nth a (n_siz (nodeinfo lat R)) 0) in *.
    destruct (sgn_cases n d) as [Et|Et]; fold t in Et; rewrite Et in *; cbn [Z.eqb Pos.eqb].
    - destruct (Z.eq_dec x (L - 1)) as [Ex|Ex].
      + rewrite Ex in E. replace (L - 1 + 1) with L in E by ring. rewrite Z.mod_same in E by lia. lia.
      + rewrite Z.mod_small in E by lia. lia.
    - destruct (Z.eq_dec x 0) as [Ex|Ex].
      + rewrite Ex in E. cbn [Z.add] in E.
        assert (E' : (-1) mod L = L - 1) by (symmetry; apply Z.mod_unique with (-1); lia). rewrite E' in E. lia.
      + rewrite Z.mod_small in E by lia. lia.
  Qed.

  Let q := subnode_of v dbl r c a.
  Let p := place_in_subnode v dbl r c a.
  Let N := nsub a.
  Let e := sub_extent v dbl r a.

  (** All cases along the axis. *)
  Lemma g_axis :
    (bnd r c = false -> off lat r d c = false /\ subnode_of v dbl R c1 a = q /\
                      place_in_subnode v dbl R c1 a = p + t) /\
    (bnd r c = true ->
       off lat r d c = negb (nth a (n_divisions lat) 0 =? 1) && negb ((0 <=? q + t) && (q + t <? N)) /\
       subnode_of v dbl R c1 a = (q + t) mod N /\
       place_in_subnode v dbl R c1 a = if t =? 1 then 0 else sub_extent v dbl R a - 1).
  Proof.
    assert (Ha := a_lt). destruct g_owner as [HR Hc1].
    destruct (sub_place r c a Hr Hc Ha) as (E & Hp & Hq). fold q p N e in E, Hp, Hq.
    destruct (ext_facts r a Hr Ha) as (He & HN & HS). fold N e in He, HN, HS.
    destruct (ext_facts R a HR Ha) as (HeR & _ & HSR). fold N in HSR.
    destruct (box_facts r c a Hr Hc Ha) as (B1 & B2 & B3 & B4).
    destruct g_site as [_ Hx]. specialize (Hx a Ha).
    assert (E1 : nth a c1 0 = (nth a c 0 + t) mod nth a ls 0) by (rewrite g_nth, Nat.eqb_refl by auto; auto).
    assert (Hoe := g_off_iff). assert (Hed := g_off_edge). assert (Hrk := g_same_rank).
    unfold bnd. fold p e.
    assert (Ht : t = 1 \/ t = -1) by apply sgn_cases.
    set (mm := nth a (n_min (nodeinfo lat r)) 0) in *. set (L := nth a ls 0) in *.
    set (S := nth a (n_siz (nodeinfo lat r)) 0) in *. set (x := nth a c 0) in *. set (y := nth a c1 0) in *.
    split; intros Hb.
    - assert (Hin : 0 <= p + t < e) by (apply negb_false_iff in Hb; lia).
      assert (Hxt : 0 <= x + t - mm < S) by nia.
      rewrite Z.mod_small in E1 by lia.
      assert (Ho : off lat r d c = false) by (rewrite Hoe; apply negb_false_iff; lia).
      split; auto. rewrite (Hrk Ho). apply sub_place_of; auto. fold lat mm e y. lia.
    - assert (Hin : p + t = -1 \/ p + t = e) by (apply negb_true_iff in Hb; lia).
      assert (Hpt : (t = 1 /\ p = e - 1) \/ (t = -1 /\ p = 0)) by lia. clear Hb Hin.
      destruct (Z_lt_le_dec (q + t) 0) as [Hq0|Hq0]; [|destruct (Z_lt_le_dec (q + t) N) as [Hq1|Hq1]].
      + (* below the first subnode *)
        assert (Et : t = -1) by lia. assert (Eq : q = 0) by lia. assert (Ep : p = 0) by lia.
        assert (Em : (q + t) mod N = N - 1).
        { symmetry. apply Z.mod_unique with (-1); lia. }
        rewrite Em. rewrite Et in *. cbn [Z.eqb Pos.eqb] in *. assert (Exm : x = mm) by nia.
        assert (Eneg : (0 <=? q + -1) && (q + -1 <? N) = false) by (rewrite Eq; auto). rewrite Eneg.
        destruct (Z.eqb_spec (nth a (n_divisions lat) 0) 1) as [Hn1|Hn1]; cbn [negb andb].
        * destruct (B3 Hn1) as [M1 M2].
          assert (E2 : y = L - 1).
          { rewrite E1. symmetry. apply Z.mod_unique with (-1); lia. }
          assert (Ho : off lat r d c = false) by (rewrite Hoe; apply negb_false_iff; lia).
          split; auto. rewrite (Hrk Ho). fold e.
          apply sub_place_of; auto; fold e; [lia|]. fold lat mm y. rewrite E2, M1, <- M2, HS. ring.
        * specialize (B4 Hn1).
          assert (Ho : off lat r d c = true).
          { rewrite Hoe. apply negb_true_iff. destruct (Z.eq_dec mm 0) as [Em0|Em0].
            - assert (E2 : y = L - 1) by (rewrite E1; symmetry; apply Z.mod_unique with (-1); lia). lia.
            - rewrite Z.mod_small in E1 by lia. lia. }
          split; auto. specialize (Hed Ho). rewrite HSR in Hed.
          apply sub_place_of; auto; [lia|]. fold lat. fold y. rewrite Hed. ring.
      + (* into another subnode of this rank *)
        assert (Ey : y - mm = (q + t) * e + (if t =? 1 then 0 else e - 1) /\ 0 <= y - mm < S).
        { assert (Hxt : 0 <= x + t - mm < S) by nia. rewrite Z.mod_small in E1 by lia. split; [|lia].
          destruct Ht as [Et|Et]; rewrite Et in *; cbn [Z.eqb Pos.eqb]; nia. }
        destruct Ey as [Ey Hys].
        assert (Ho : off lat r d c = false) by (rewrite Hoe; apply negb_false_iff; lia).
        assert (Ein : (0 <=? q + t) && (q + t <? N) = true) by lia. rewrite Ein.
        cbn [negb]. rewrite andb_false_r. split; auto. rewrite (Hrk Ho). fold e.
        rewrite (Z.mod_small (q + t)) by lia.
        apply sub_place_of; auto. fold e. destruct (t =? 1); lia.
      + (* above the last subnode *)
        assert (Et : t = 1) by lia. assert (Eq : q = N - 1) by lia. assert (Ep : p = e - 1) by lia.
        assert (Em : (q + t) mod N = 0).
        { symmetry. apply Z.mod_unique with 1; lia. }
        rewrite Em. rewrite Et in *. cbn [Z.eqb Pos.eqb] in *. assert (Exm : x = mm + S - 1) by nia.
        assert (Eneg : (0 <=? q + 1) && (q + 1 <? N) = false) by (rewrite Eq; lia). rewrite Eneg.
        destruct (Z.eqb_spec (nth a (n_divisions lat) 0) 1) as [Hn1|Hn1]; cbn [negb andb].
        * destruct (B3 Hn1) as [M1 M2].
          assert (E2 : y = 0).
          { rewrite E1. symmetry. apply Z.mod_unique with 1; lia. }
          assert (Ho : off lat r d c = false) by (rewrite Hoe; apply negb_false_iff; lia).
          split; auto. rewrite (Hrk Ho).
          apply sub_place_of; auto; fold e; [lia|]. fold lat mm y. lia.
        * specialize (B4 Hn1).
          assert (Ho : off lat r d c = true).
          { rewrite Hoe. apply negb_true_iff. destruct (Z.eq_dec (mm + S) L) as [Em0|Em0].
            - assert (E2 : y = 0) by (rewrite E1; symmetry; apply Z.mod_unique with 1; lia). lia.
            - rewrite Z.mod_small in E1 by lia. lia. }
          split; auto. specialize (Hed Ho).
          apply sub_place_of; [auto..|]; [lia|]. fold lat. fold y. lia.
  Qed.
End Geometry.
