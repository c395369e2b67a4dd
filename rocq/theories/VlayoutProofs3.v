(** What the gather tables hold with the vectorised site index. *)
From Verif Require Import Common LayoutModel LayoutSpec LayoutProofs1 LayoutProofs2 LayoutProofs4
  LayoutProofs5 LayoutProofs6 LayoutProofs7 VlayoutModel VlayoutSpec VlayoutProofs1 VlayoutProofs2.

Section VPass1.
  Variables (v : vlattice) (rank : Z) (ni : node_info) (crd : Z -> list Z) (d : Z).
  Let lat := vl_lat v.
  Let nb i := neighbour lat (crd i) d.
  Let offi i := negb (is_on_node ni (nb i)).
  Let ev i := even_site (crd i).
  Let evn i := even_site (nb i).

  (** The first pass, apart from the stored index, is that of the standard layout. *)
  Lemma vpass1_sim : forall is s s', 
    p1_rank s = p1_rank s' /\ p1_from_even s = p1_from_even s' /\ p1_from_odd s = p1_from_odd s' /\
    p1_to_even s = p1_to_even s' /\ p1_to_odd s = p1_to_odd s' ->
    let x := fold_left (vpass1_step v rank ni crd d) is s in
    let y := fold_left (pass1_step lat rank ni crd d) is s' in
    p1_rank x = p1_rank y /\ p1_from_even x = p1_from_even y /\ p1_from_odd x = p1_from_odd y /\
    p1_to_even x = p1_to_even y /\ p1_to_odd x = p1_to_odd y.
  Proof.
    induction is as [|i is IH]; intros s s' H; [exact H|]. cbn [fold_left]. apply IH.
    destruct H as (E1 & E2 & E3 & E4 & E5). unfold vpass1_step, pass1_step. fold lat.
    destruct (is_on_node ni (neighbour lat (crd i) d)); cbn; rewrite ?E1, ?E2, ?E3, ?E4, ?E5; auto.
  Qed.

  Lemma vpass1_neighb : forall is s, NoDup is -> forall i,
    p1_neighb (fold_left (vpass1_step v rank ni crd d) is s) i =
       if in_dec Z.eq_dec i is then (if offi i then volume ni else vsite_index v ni (nb i))
       else p1_neighb s i.
  Proof.
    induction is as [|k is IH]; intros s Hn i; [reflexivity|]. inversion Hn; subst. cbn [fold_left].
    rewrite IH by auto.
    assert (Hstep : p1_neighb (vpass1_step v rank ni crd d s k) =
      zupd (p1_neighb s) k (if offi k then volume ni else vsite_index v ni (nb k))).
    { unfold vpass1_step, offi, nb. fold lat. destruct (is_on_node ni (neighbour lat (crd k) d)); auto. }
    rewrite Hstep.
    destruct (in_dec Z.eq_dec i is), (in_dec Z.eq_dec i (k :: is)); auto.
    - exfalso. apply n. simpl. auto.
    - destruct i0 as [->|]; [|tauto]. apply zupd_same.
    - apply zupd_other. intros ->. apply n0. simpl. auto.
  Qed.
End VPass1.

Section Tables.
  Variable v : vlattice.
  Hypothesis Hvv : valid_vlattice v.
  Let lat := vl_lat v.
  Let Hv : valid_lattice lat := vv_valid v Hvv.

  Definition vcrd (r i : Z) : list Z := vcoordinates v (nodeinfo lat r) i.
  Definition vI (r : Z) : list Z := zrange 0 (Z.to_nat (volume (nodeinfo lat r))).
  Definition offi (r d i : Z) : bool := off lat r d (vcrd r i).
  Definition vnb (r d i : Z) : list Z := neighbour lat (vcrd r i) d.

  (** Off-node sites in index order, by parity of the site, and by parity of
      the off-node neighbour. *)
  Definition flist (r d : Z) (p : parity) : list Z :=
    let E := filter (fun i => offi r d i && even_site (vcrd r i)) (vI r) in
    let O := filter (fun i => offi r d i && negb (even_site (vcrd r i))) (vI r) in
    match p with EVEN => E | ODD => O | ALL => E ++ O end.
  Definition slist (r d : Z) (p : parity) : list Z :=
    let E := filter (fun i => offi r d i && even_site (vnb r d i)) (vI r) in
    let O := filter (fun i => offi r d i && negb (even_site (vnb r d i))) (vI r) in
    match p with EVEN => E | ODD => O | ALL => E ++ O end.

  Lemma vol_nn : forall r, is_rank lat r -> 0 <= volume (nodeinfo lat r).
  Proof. intros. apply (vol_nonneg lat Hv r 0 H). Qed.

  Lemma vI_In : forall r i, is_rank lat r -> (In i (vI r) <-> 0 <= i < volume (nodeinfo lat r)).
  Proof. intros r i Hr. unfold vI. rewrite zrange_In. assert (H := vol_nn r Hr). lia. Qed.

  Lemma vcrd_spec : forall r i, is_rank lat r -> In i (vI r) ->
    holds lat r (vcrd r i) /\ vsite_index v (nodeinfo lat r) (vcrd r i) = i.
  Proof. intros r i Hr Hi. apply vI_In in Hi; auto. apply (crd_spec v Hvv r i Hr Hi). Qed.

  Fixpoint voffset_before (rank : Z) (ni : node_info) (crd : Z -> list Z)
    (ds : list Z) (o : Z) (k : nat) : Z :=
    match k, ds with
    | S k', d :: ds' => voffset_before rank ni crd ds'
                          (o + cn_sites (dp_from (vrun_dir v rank ni crd d o))) k'
    | _, _ => o
    end.

  Lemma vgathers_nth : forall rank ni crd ds o k, (k < length ds)%nat ->
    nth k (vgathers_loop v rank ni crd ds o) empty_pass =
    vrun_dir v rank ni crd (nth k ds 0) (voffset_before rank ni crd ds o k).
  Proof. induction ds; simpl; intros; [lia|]. destruct k; auto. apply IHds. lia. Qed.

  Definition vstart (r d : Z) : Z :=
    voffset_before r (nodeinfo lat r) (vcoordinates v (nodeinfo lat r))
      (zrange 0 (Z.to_nat (ndirs lat))) (volume (nodeinfo lat r)) (Z.to_nat d).

  Lemma vtables_run : forall r d, is_direction (l_size lat) d ->
    vdir_tables v r d = vrun_dir v r (nodeinfo lat r) (vcoordinates v (nodeinfo lat r)) d (vstart r d).
  Proof.
    intros r d Hd. unfold is_direction in Hd. unfold vdir_tables, vstart. fold lat.
    unfold ndirs. rewrite vgathers_nth by (rewrite zrange_length; lia).
    rewrite zrange_nth by lia. rewrite Z2Nat.id by lia. auto.
  Qed.

  Section One.
    Variables (r d : Z).
    Hypothesis Hr : is_rank lat r.
    Hypothesis Hd : is_direction (l_size lat) d.
    Let ni := nodeinfo lat r.
    Let p1 := vrun_pass1 v r ni (vcoordinates v ni) d.

    Lemma vp1_facts :
      (forall i, In i (vI r) -> p1_neighb p1 i =
         if offi r d i then volume ni else vsite_index v ni (vnb r d i)) /\
      p1_from_even p1 = Z.of_nat (length (flist r d EVEN)) /\
      p1_from_odd p1 = Z.of_nat (length (flist r d ODD)) /\
      p1_to_even p1 = Z.of_nat (length (slist r d EVEN)) /\
      p1_to_odd p1 = Z.of_nat (length (slist r d ODD)).
    Proof.
      destruct (pass1_spec lat r ni (vcoordinates v ni) d (vI r) (mkPass1 (fun _ => 0) r 0 0 0 0) (zrange_NoDup _ _))
        as (_ & E2 & E3 & E4 & E5).
      destruct (vpass1_sim v r ni (vcoordinates v ni) d (vI r) (mkPass1 (fun _ => 0) r 0 0 0 0)
        (mkPass1 (fun _ => 0) r 0 0 0 0)) as (_ & F2 & F3 & F4 & F5); [repeat split|].
      unfold p1, vrun_pass1. fold lat. change (zrange 0 (Z.to_nat (volume ni))) with (vI r).
      fold lat in F2, F3, F4, F5. rewrite F2, F3, F4, F5, E2, E3, E4, E5.
      cbn [p1_from_even p1_from_odd p1_to_even p1_to_odd]. repeat split.
      intros i Hi. rewrite vpass1_neighb by apply zrange_NoDup.
      destruct (in_dec Z.eq_dec i (vI r)); [reflexivity|tauto].
    Qed.

    Lemma nb_index_range : forall i, In i (vI r) -> offi r d i = false ->
      0 <= vsite_index v ni (vnb r d i) < volume ni.
    Proof.
      intros i Hi Ho. apply (index_range v Hvv r); auto. apply holds_on_node.
      unfold offi, off in Ho. unfold vnb. fold lat. destruct (is_on_node _ _); auto.
    Qed.

    Lemma lists_length :
      (length (flist r d EVEN) + length (flist r d ODD) = length (filter (offi r d) (vI r)))%nat /\
      (length (slist r d EVEN) + length (slist r d ODD) = length (filter (offi r d) (vI r)))%nat.
    Proof.
      assert (H := cnt_split _ (offi r d) (fun i => even_site (vcrd r i)) (vI r)).
      assert (H' := cnt_split _ (offi r d) (fun i => even_site (vnb r d i)) (vI r)).
      unfold cnt in H, H'. cbn [flist slist]. lia.
    Qed.

    Variable o : Z.
    Hypothesis Ho : volume ni <= o.
    Let T := vrun_dir v r ni (vcoordinates v ni) d o.

    Lemma vT_facts :
      (forall i, In i (vI r) -> offi r d i = false -> dp_neighb T i = vsite_index v ni (vnb r d i)) /\
      (forall i, In i (vI r) -> offi r d i = true -> volume ni <= dp_neighb T i) /\
      map (cn_sitelist (dp_to_opp T)) (zrange 0 (length (slist r d EVEN))) = slist r d EVEN /\
      map (cn_sitelist (dp_to_opp T)) (zrange (Z.of_nat (length (slist r d EVEN))) (length (slist r d ODD)))
        = slist r d ODD.
    Proof.
      destruct vp1_facts as (P0 & P1 & P2 & P3 & P4). destruct lists_length as [L1 L2].
      unfold T, vrun_dir. fold p1. fold lat. cbn [dp_neighb dp_to_opp cn_sitelist].
      destruct (Z.ltb_spec 0 (p1_to_even p1 + p1_to_odd p1)) as [Hpos|Hz].
      - assert (Hnb0 : forall i, In i (vI r) -> (p2_neighb (mkPass2 (p1_neighb p1) 0 0 0 0 (fun _ => 0)) i =? volume ni)
                  = negb (is_on_node ni (neighbour lat (vcoordinates v ni i) d))).
        { intros i Hi. cbn [p2_neighb]. rewrite P0 by auto. change (negb _) with (offi r d i).
          destruct (offi r d i) eqn:E; [apply Z.eqb_refl|].
          assert (H := nb_index_range i Hi E). lia. }
        destruct (pass2_spec lat ni (vcoordinates v ni) d o p1 (vI r)
          (mkPass2 (p1_neighb p1) 0 0 0 0 (fun _ => 0)) (zrange_NoDup _ _) Hnb0)
          as (A1 & A2 & A3 & A4 & A5 & _); cbn [p2_to_even p2_to_odd]; try lia.
        { rewrite P3. apply Z.eq_le_incl. reflexivity. }
        unfold run_pass2. change (zrange 0 (Z.to_nat (volume ni))) with (vI r).
        set (res := fold_left (pass2_step lat ni (vcoordinates v ni) d o p1) (vI r)
          (mkPass2 (p1_neighb p1) 0 0 0 0 (fun _ => 0))) in *.
        cbn [p2_neighb p2_from_even p2_from_odd p2_to_even p2_to_odd] in *.
        split; [|split; [|split]].
        + intros i Hi Hoi. rewrite A1; [rewrite P0, Hoi; auto|].
          intros [_ H]. change (offi r d i = true) in H. congruence.
        + intros i Hi Hoi. destruct (even_site (vcrd r i)) eqn:Ee.
          * assert (Hin : In (p2_neighb res i) (map (p2_neighb res) (flist r d EVEN))).
            { apply in_map. apply filter_In. rewrite Hoi, Ee. auto. }
            change (map (p2_neighb res) (flist r d EVEN) =
              zrange (o + 0) (length (flist r d EVEN))) in A2. rewrite A2 in Hin. apply zrange_In in Hin. lia.
          * assert (Hin : In (p2_neighb res i) (map (p2_neighb res) (flist r d ODD))).
            { apply in_map. apply filter_In. rewrite Hoi, Ee. auto. }
            change (map (p2_neighb res) (flist r d ODD) =
              zrange (o + p1_from_even p1 + 0) (length (flist r d ODD))) in A3.
            rewrite A3 in Hin. apply zrange_In in Hin. lia.
        + exact A4.
        + transitivity (map (p2_sitelist res) (zrange (p1_to_even p1 + 0) (length (slist r d ODD)))); [|exact A5].
          do 2 f_equal. lia.
      - assert (Z1 : length (filter (offi r d) (vI r)) = 0%nat) by lia.
        assert (Z3 : length (slist r d EVEN) = 0%nat) by lia.
        assert (Z4 : length (slist r d ODD) = 0%nat) by lia.
        apply length_zero_iff_nil in Z1, Z3, Z4. rewrite Z3, Z4.
        assert (Hall : forall i, In i (vI r) -> offi r d i = false).
        { intros i Hi. destruct (offi r d i) eqn:E; auto.
          assert (Hin : In i (filter (offi r d) (vI r))) by (apply filter_In; auto). rewrite Z1 in Hin. destruct Hin. }
        split; [|split; [|split; auto]].
        + intros i Hi Hoi. cbn [p2_neighb]. rewrite P0, Hoi; auto.
        + intros i Hi Hoi. rewrite Hall in Hoi by auto. discriminate.
    Qed.

    Lemma vT_comm :
      cn_even (dp_from T) = Z.of_nat (length (flist r d EVEN)) /\
      cn_odd (dp_from T) = Z.of_nat (length (flist r d ODD)) /\
      cn_even (dp_to_opp T) = Z.of_nat (length (slist r d EVEN)) /\
      cn_odd (dp_to_opp T) = Z.of_nat (length (slist r d ODD)).
    Proof. destruct vp1_facts as (P0 & P1 & P2 & P3 & P4). unfold T, vrun_dir. fold p1. cbn. auto. Qed.

    Lemma vT_rank :
      (forall c0, holds lat r c0 -> off lat r d c0 = true ->
         cn_rank (dp_from T) = node_rank lat (neighbour lat c0 d)) /\
      ((forall c0, holds lat r c0 -> off lat r d c0 = false) -> cn_rank (dp_from T) = r).
    Proof.
      assert (E : cn_rank (dp_from T) = p1_rank (fold_left (pass1_step lat r ni (vcoordinates v ni) d) (vI r)
        (mkPass1 (fun _ => 0) r 0 0 0 0))).
      { unfold T, vrun_dir. cbn [dp_from cn_rank]. unfold vrun_pass1.
        destruct (vpass1_sim v r ni (vcoordinates v ni) d (vI r) (mkPass1 (fun _ => 0) r 0 0 0 0)
          (mkPass1 (fun _ => 0) r 0 0 0 0)) as (F & _); [repeat split|]. exact F. }
      rewrite E. split.
      - intros c0 Hc Hof.
        rewrite (pass1_rank lat r ni (vcoordinates v ni) d (node_rank lat (neighbour lat c0 d))).
        + destruct (existsb _ (vI r)) eqn:Ex; auto. exfalso.
          assert (Hex : existsb (offi r d) (vI r) = true).
          { apply existsb_exists. exists (vsite_index v ni c0). split.
            - apply vI_In; auto. apply (index_range v Hvv); auto.
            - unfold offi, vcrd. unfold ni, lat. rewrite (crd_index v Hvv) by auto. auto. }
          change (existsb (offi r d) (vI r) = false) in Ex. congruence.
        + intros i Hi Hoi. destruct (vcrd_spec r i Hr Hi) as [Hh _].
          apply (face_same_rank lat Hv r d c0); auto.
        + apply (face_R_neq lat Hv r d c0); auto.
        + left. reflexivity.
      - intros Hn. rewrite pass1_rank_none; auto. intros i Hi. apply (Hn (vcrd r i)). apply vcrd_spec; auto.
    Qed.
  End One.

  Lemma vstart_ge : forall r d, volume (nodeinfo lat r) <= vstart r d.
  Proof.
    intros r d. unfold vstart.
    generalize (zrange 0 (Z.to_nat (ndirs lat))) (volume (nodeinfo lat r)) (Z.to_nat d).
    induction l; intros z k; destruct k; cbn [voffset_before]; try lia.
    etransitivity; [|apply IHl].
    destruct (vp1_facts r a) as (_ & P1 & P2 & _).
    unfold cn_sites, vrun_dir. cbn [dp_from cn_even cn_odd]. rewrite P1, P2. lia.
  Qed.

  (** ** The tables by name *)

  Lemma vneighb_spec : forall r d i, is_rank lat r -> is_direction (l_size lat) d -> In i (vI r) ->
    (offi r d i = false -> vneighb v r d i = vsite_index v (nodeinfo lat r) (vnb r d i)) /\
    (offi r d i = true -> volume (nodeinfo lat r) <= vneighb v r d i).
  Proof.
    intros r d i Hr Hd Hi. unfold vneighb. rewrite vtables_run by auto.
    destruct (vT_facts r d Hr (vstart r d) (vstart_ge r d)) as (A1 & A2 & _). auto.
  Qed.

  Lemma vneighb_on : forall r d i, is_rank lat r -> is_direction (l_size lat) d -> In i (vI r) ->
    (vneighb v r d i <? volume (nodeinfo lat r)) = negb (offi r d i).
  Proof.
    intros r d i Hr Hd Hi. destruct (vneighb_spec r d i Hr Hd Hi) as [A1 A2].
    destruct (offi r d i) eqn:E; cbn [negb].
    - specialize (A2 eq_refl). lia.
    - rewrite A1 by auto. assert (H := nb_index_range r d Hr i Hi E). lia.
  Qed.

  Lemma vfrom_sites : forall r d p, is_rank lat r -> is_direction (l_size lat) d ->
    n_sites (vfrom_node v r d) p = Z.of_nat (length (flist r d p)).
  Proof.
    intros r d p Hr Hd. unfold vfrom_node. rewrite vtables_run by auto.
    destruct (vT_comm r d (vstart r d)) as (E1 & E2 & _).
    destruct p; cbn [n_sites]; auto. unfold cn_sites. rewrite E1, E2. cbn [flist]. rewrite app_length. lia.
  Qed.

  Lemma vfrom_rank : forall r d c0, is_rank lat r -> is_direction (l_size lat) d ->
    holds lat r c0 -> off lat r d c0 = true ->
    cn_rank (vfrom_node v r d) = node_rank lat (neighbour lat c0 d).
  Proof.
    intros r d c0 Hr Hd Hc Ho. unfold vfrom_node. rewrite vtables_run by auto.
    apply (vT_rank r d Hr Hd (vstart r d)); auto.
  Qed.

  Lemma vfrom_self : forall r d, is_rank lat r -> is_direction (l_size lat) d ->
    (forall c0, holds lat r c0 -> off lat r d c0 = false) -> cn_rank (vfrom_node v r d) = r.
  Proof.
    intros r d Hr Hd Hn. unfold vfrom_node. rewrite vtables_run by auto.
    apply (vT_rank r d Hr Hd (vstart r d)); auto.
  Qed.

  Lemma vsend_list : forall r d p, is_rank lat r -> is_direction (l_size lat) d ->
    get_sitelist (vto_node v r d) p = slist r (oppd lat d) p.
  Proof.
    intros r d p Hr Hd. unfold vto_node. fold lat. fold (oppd lat d).
    assert (Hd' := oppd_direction lat d Hd). rewrite vtables_run by auto.
    destruct (vT_facts r (oppd lat d) Hr (vstart r (oppd lat d)) (vstart_ge _ _)) as (_ & _ & A4 & A5).
    destruct (vT_comm r (oppd lat d) (vstart r (oppd lat d))) as (_ & _ & E1 & E2).
    destruct p; cbn [get_sitelist].
    - rewrite E1, Nat2Z.id. auto.
    - rewrite seq_map, E1, E2, Nat2Z.id, Z.add_0_r. auto.
    - unfold cn_sites. rewrite E1, E2. rewrite Z2Nat.inj_add, !Nat2Z.id by lia.
      rewrite zrange_app, map_app. cbn [slist] in *. f_equal; auto.
  Qed.
End Tables.
