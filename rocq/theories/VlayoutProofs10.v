(** Antiperiodic boundary conditions in a direction that is not divided
    between the lanes of a vector. *)
From Verif Require Import Common LayoutModel LayoutSpec LayoutProofs1 LayoutProofs2 LayoutProofs4
  LayoutProofs5 LayoutProofs6 LayoutProofs7 VlayoutModel VlayoutSpec VlayoutProofs1 VlayoutProofs2
  VlayoutProofs3 VlayoutProofs4 VlayoutProofs5 VlayoutProofs6 VlayoutProofs7 VlayoutProofs8.

Section Anti.
  Variable v : vlattice.
  Hypothesis Hvv : valid_vlattice v.
  Variable dbl : bool.
  Let lat := vl_lat v.
  Let Hv : valid_lattice lat := vv_valid v Hvv.
  Let ls := l_size lat.
  Let n := length ls.
  Let W := vector_size v dbl.
  Variables (r d : Z).
  Hypothesis Hr : is_rank lat r.
  Hypothesis Hd : is_direction ls d.
  Let ni := nodeinfo lat r.
  Let a := axis n d.
  Let t := sgn n d.

  Lemma wraps_iff : forall c, is_site ls c ->
    (neighbour lat c d = add_dir c d <-> 0 <= nth a c 0 + t < nth a ls 0).
  Proof.
    intros c Hc. assert (Ha : (a < n)%nat) by (apply axis_lt; auto).
    assert (Hl : length c = n) by apply Hc. assert (Hx := proj2 Hc a Ha).
    unfold neighbour. fold ls. rewrite nbr_upd by (first [apply valid_pos; auto | auto]).
    rewrite add_dir_axis by (rewrite Hl; exact Hd). rewrite Hl, add_at_upd. fold n. fold a t.
    split.
    - intros E. assert (E1 : nth a (upd_at a (shift1 ls d) c) 0 = nth a (upd_at a (fun x => x + t) c) 0) by (rewrite E; auto).
      rewrite !nth_upd_at in E1 by (rewrite Hl; auto). rewrite Nat.eqb_refl in E1. unfold shift1 in E1. fold n a t in E1.
      rewrite <- E1. apply Z.mod_pos_bound. lia.
    - intros H. apply nth_ext with (d := 0) (d' := 0); [rewrite !upd_at_length; auto|].
      intros j Hj. rewrite !nth_upd_at by (rewrite Hl; auto). destruct (j =? a)%nat; auto.
      unfold shift1. fold n a t. apply Z.mod_small. auto.
  Qed.

  Lemma inner_no_wrap : forall c, holds lat r c -> bnd v dbl d r c = false -> neighbour lat c d = add_dir c d.
  Proof.
    intros c Hc Hb. assert (Ha : (a < n)%nat) by (apply axis_lt; auto).
    apply wraps_iff; [apply (holds_is_site lat r); auto|].
    destruct (sub_place v Hvv dbl r c a Hr Hc Ha) as (E & P & Q).
    destruct (ext_facts v Hvv dbl r a Hr Ha) as (He & HN & HS).
    destruct (box_facts v Hvv r c a Hr Hc Ha) as (B1 & B2 & _).
    fold lat in E, P, Q, He, HN, HS, B1, B2. fold ls in B2.
    unfold bnd in Hb. fold lat in Hb. fold ls in Hb. fold n in Hb. fold (axis n d) in Hb. fold a t in Hb.
    apply negb_false_iff, andb_true_iff in Hb. destruct Hb as [H1 H2]. apply Z.leb_le in H1. apply Z.ltb_lt in H2.
    nia.
  Qed.

  (** Without subnodes along the axis, every boundary site that stays on the
      rank wraps around the lattice. *)
  Lemma single_on : forall c, nsub v dbl a = 1 -> holds lat r c -> bnd v dbl d r c = true -> off lat r d c = false ->
    is_on_edge lat r d = true /\ neighbour lat c d <> add_dir c d.
  Proof.
    intros c HN Hc Hb Ho. assert (Ha : (a < n)%nat) by (apply axis_lt; auto).
    assert (Hnd : nth a (n_divisions lat) 0 = 1).
    { destruct (Z.eq_dec (nth a (n_divisions lat) 0) 1) as [|Hne]; auto.
      assert (E := single_off v Hvv dbl r Hr d Hd c HN Hc Hne). fold lat in E. congruence. }
    destruct (box_facts v Hvv r c a Hr Hc Ha) as (B1 & B2 & B3 & _). fold lat in B1, B2, B3. fold ls in B2, B3.
    destruct (B3 Hnd) as [M S].
    destruct (sub_place v Hvv dbl r c a Hr Hc Ha) as (E & P & Q).
    destruct (ext_facts v Hvv dbl r a Hr Ha) as (He & _ & HS).
    fold lat in E, P, Q, He, HS. rewrite HN in Q, HS.
    unfold bnd in Hb. fold lat in Hb. fold ls in Hb. fold n in Hb. fold (axis n d) in Hb. fold a t in Hb.
    split.
    - unfold is_on_edge. fold ls. fold n. fold (axis n d). fold a. rewrite M, S. destruct (is_up_dir _ d); lia.
    - rewrite wraps_iff by (apply (holds_is_site lat r); auto). apply negb_true_iff, andb_false_iff in Hb.
      rewrite Z.leb_gt, Z.ltb_ge in Hb. nia.
  Qed.

  (** The owner of an off-node neighbour is on the opposite edge exactly if the
      step wraps. *)
  Lemma off_edge : forall c, holds lat r c -> off lat r d c = true ->
    (is_on_edge lat (node_rank lat (neighbour lat c d)) (opp_dir (Z.of_nat n) d) = true <->
     neighbour lat c d <> add_dir c d).
  Proof.
    intros c Hc Ho. assert (Ha : (a < n)%nat) by (apply axis_lt; auto).
    assert (Hs : is_site ls c) by (apply (holds_is_site lat r); auto).
    destruct (g_owner v Hvv r d Hr Hd c Hc) as [HR HcR]. fold lat in HR, HcR.
    assert (E := g_off_edge v Hvv r d Hr Hd c Hc Ho).
    assert (Enb := g_nth v Hvv r d Hr Hd c Hc a Ha). fold lat in E, Enb. fold ls in E, Enb. fold n in E, Enb. fold a t in E, Enb.
    rewrite Nat.eqb_refl in Enb.
    destruct (box_facts v Hvv _ _ a HR HcR Ha) as (B1 & B2 & _). fold lat in B1, B2. fold ls in B2.
    rewrite (wraps_iff c Hs). assert (Hx := proj2 Hs a Ha).
    unfold is_on_edge. fold ls. fold n. fold (axis n (opp_dir (Z.of_nat n) d)). rewrite axis_opp by auto. fold a.
    set (R := node_rank lat (neighbour lat c d)) in *. set (y := nth a (neighbour lat c d) 0) in *.
    assert (Et : t = if is_up_dir (Z.of_nat n) d then 1 else -1) by reflexivity.
    assert (Eup : is_up_dir (Z.of_nat n) (opp_dir (Z.of_nat n) d) = negb (is_up_dir (Z.of_nat n) d)).
    { unfold is_up_dir, opp_dir. unfold is_direction in Hd. fold n in Hd. lia. }
    rewrite Eup. destruct (is_up_dir (Z.of_nat n) d); cbn [negb]; rewrite Et in *; cbn [Z.eqb Pos.eqb] in E; rewrite Z.eqb_eq.
    - destruct (Z.eq_dec (nth a c 0) (nth a ls 0 - 1)) as [Ex|Ex].
      + rewrite Ex in Enb. replace (nth a ls 0 - 1 + 1) with (nth a ls 0) in Enb by ring. rewrite Z.mod_same in Enb by lia. lia.
      + rewrite Z.mod_small in Enb by lia. lia.
    - destruct (Z.eq_dec (nth a c 0) 0) as [Ex|Ex].
      + rewrite Ex in Enb. cbn [Z.add] in Enb.
        assert (E' : (-1) mod (nth a ls 0) = nth a ls 0 - 1) by (symmetry; apply Z.mod_unique with (-1); lia). lia.
      + rewrite Z.mod_small in Enb by lia. lia.
  Qed.

  Theorem anti_spec : forall (T : Type) (neg : T -> T) (st : Z -> Z -> T) (F : list Z -> T) p,
    is_permutation v dbl d = false ->
    vrepresents v st F ->
    let mem := vgather_anti T neg v dbl d p st r in
    (forall i, i < volume ni -> mem i = st r i) /\
    (forall c, holds lat r c -> has_parity p c ->
       mem (read_position v dbl r d (vsite_index v ni c)) = antiperiodic_value neg lat F c d).
  Proof.
    intros T neg st F p Hnp Hst mem.
    destruct (vs_facts v Hvv dbl r Hr) as [V0 V1]. fold lat in V0, V1. fold ni in V0, V1. fold W in V0, V1.
    set (fl := fun x : T => if is_on_edge lat r d then neg x else x).
    set (lmem := set_local_boundary T v dbl r d p fl (st r)).
    assert (HN : nsub v dbl a = 1).
    { assert (H := is_perm_nsub v Hvv dbl r d Hd). fold lat in H. fold ls in H. fold n in H. fold a in H. rewrite Hnp in H.
      assert (H2 := nsub_pos v Hvv dbl r Hr d Hd). fold lat in H2. fold ls in H2. fold n in H2. fold a in H2. lia. }
    assert (Hlow : forall i, i < volume ni -> lmem i = st r i).
    { intros i Hi. apply (local_low v Hvv dbl r Hr d Hd). fold lat. fold ni W. lia. }
    assert (Hin : forall c, holds lat r c -> bnd v dbl d r c = false ->
      read_position v dbl r d (vsite_index v ni c) = vsite_index v ni (neighbour lat c d) /\ holds lat r (neighbour lat c d)).
    { intros c Hc Hb. assert (E0 := pos_index v Hvv dbl r d Hr c Hc). cbv beta in E0. fold lat in E0. fold ni in E0.
      rewrite E0. split; [apply (inner_neighbour v Hvv dbl r d Hr Hd c Hc Hb)|].
      destruct (nb_lane_in v Hvv dbl r d Hr Hd c Hc Hb) as [E _].
      destruct (own_spec v Hvv r d Hr Hd c Hc) as [_ H1]. cbv beta in E, H1. fold lat in E, H1. rewrite E in H1. auto. }
    assert (Hloc : forall c, holds lat r c -> has_parity p c -> off lat r d c = false ->
      lmem (read_position v dbl r d (vsite_index v ni c)) = antiperiodic_value neg lat F c d).
    { intros c Hc Hp Ho. unfold antiperiodic_value. destruct (bnd v dbl d r c) eqn:Hb.
      - assert (E0 := pos_bnd v Hvv dbl r d Hr Hd c Hc Hb). cbv beta in E0. fold lat in E0. fold ni in E0. destruct E0 as [-> _].
        etransitivity; [apply (local_halo v Hvv dbl r Hr d Hd T p fl (st r) c Hc Hp Hb Ho)|].
        destruct (single_on c HN Hc Hb Ho) as [E1 E2].
        destruct (list_eq_dec Z.eq_dec (neighbour lat c d) (add_dir c d)); [tauto|].
        unfold fl. rewrite E1. f_equal. apply Hst; auto. apply (on_index v Hvv r Hr d Hd c Hc Ho).
      - destruct (Hin c Hc Hb) as [-> Hn]. assert (E := inner_no_wrap c Hc Hb).
        destruct (list_eq_dec Z.eq_dec (neighbour lat c d) (add_dir c d)); [|tauto].
        rewrite Hlow; [apply Hst; auto|]. apply (index_range v Hvv); auto. }
    unfold mem, vgather_anti, vgather. fold lat. fold fl. fold lmem.
    destruct (exists_off v Hvv r d Hr) as [(c0 & Hc0 & Ho0)|Hnone].
    - destruct (R_facts v Hvv r d Hr Hd c0 Hc0 Ho0) as (HR & HRr & Ecn & HRc). cbv beta in HR, HRr, Ecn, HRc.
      fold lat in HR, HRr, Ecn, HRc.
      set (R := node_rank lat (neighbour lat c0 d)) in *.
      assert (Eb : (cn_rank (vfrom_node v r d) =? r) = false) by (apply Z.eqb_neq; congruence).
      rewrite Eb, Ecn, Hnp.
      set (fs := fun q (x : T) => if is_on_edge lat q (opp_dir (Z.of_nat (length (l_size lat))) d) then neg x else x).
      set (st' := fun q i => fs q (st q i)).
      set (F' := fun c => fs (node_rank lat c) (F c)).
      assert (Hst' : vrepresents v st' F').
      { intros q c Hq Hc. unfold st', F'. rewrite (Hst q c Hq Hc).
        assert (Eq : q = node_rank lat c) by (apply (owner_unique lat c Hv (holds_is_site lat q c Hv Hq Hc)); auto).
        rewrite <- Eq. auto. }
      assert (Ebuf : forall i, fs R (pack T v dbl R d p (st R) i) = pack T v dbl R d p (st' R) i).
      { intros i. unfold pack. rewrite Hnp. auto. }
      assert (Epd : forall m j, place_direct T v dbl r d p (fun i => fs R (pack T v dbl R d p (st R) i)) m j =
        place_direct T v dbl r d p (pack T v dbl R d p (st' R)) m j).
      { intros m j. unfold place_direct. generalize (zrange 0 (Z.to_nat (n_sites (vfrom_node v r d) p))).
        intros l. revert m. induction l; intros m; cbn [fold_left]; auto. rewrite Ebuf. auto. }
      assert (Hfs : forall q x, (if is_on_edge lat q (opp_dir (Z.of_nat (length (l_size lat))) d) then neg x else x) = fs q x) by auto.
      split.
      + intros i Hi. etransitivity; [apply Epd|].
        rewrite (direct_keep v Hvv dbl r d Hr Hd T c0 Hc0 Ho0 Hnp) by (fold lat; fold ni W; lia). auto.
      + intros c Hc Hp. destruct (off lat r d c) eqn:Ho.
        * etransitivity; [apply Epd|].
          etransitivity; [apply (direct_spec v Hvv dbl r d Hr Hd T st' F' Hst' c0 Hc0 Ho0 Hnp p lmem c Hc Ho Hp)|].
          unfold F', fs, antiperiodic_value. assert (E := off_edge c Hc Ho). fold lat. fold ls. fold n.
          destruct (list_eq_dec Z.eq_dec (neighbour lat c d) (add_dir c d)) as [Ew|Ew].
          -- destruct (is_on_edge lat _ (opp_dir _ _)) eqn:Ee; auto. exfalso. apply (proj1 E eq_refl). exact Ew.
          -- apply E in Ew. rewrite Ew. auto.
        * assert (E := single_off v Hvv dbl r Hr d Hd c HN Hc (nd_many v Hvv dbl r d Hr Hd c0 Hc0 Ho0)). fold lat in E.
          rewrite Ho in E. destruct (Hin c Hc (eq_sym E)) as [E1 Hn].
          assert (Hx := index_range v Hvv r _ Hr Hn). fold lat in Hx. fold ni in Hx.
          etransitivity; [apply Epd|].
          rewrite (direct_keep v Hvv dbl r d Hr Hd T c0 Hc0 Ho0 Hnp) by (fold lat; fold ni W; lia). apply Hloc; auto.
    - assert (Eb : (cn_rank (vfrom_node v r d) =? r) = true).
      { apply Z.eqb_eq. apply (vfrom_self v Hvv r d Hr Hd Hnone). }
      rewrite Eb. split; [exact Hlow|]. intros c Hc Hp. apply Hloc; auto.
  Qed.
End Anti.
