(** The halo update of a vectorised field delivers the neighbours. *)
From Coq Require Import Sorted.
From Verif Require Import Common LayoutModel LayoutSpec LayoutProofs1 LayoutProofs2 LayoutProofs4
  LayoutProofs5 LayoutProofs6 LayoutProofs7 VlayoutModel VlayoutSpec VlayoutProofs1 VlayoutProofs2
  VlayoutProofs3 VlayoutProofs4 VlayoutProofs5 VlayoutProofs6 VlayoutProofs7.

Lemma has_parity_even : forall p c, has_parity p c <->
  match p with EVEN => even_site c = true | ODD => even_site c = false | ALL => True end.
Proof.
  intros p c. rewrite even_site_spec. unfold has_parity, site_even. rewrite Zmod_even.
  destruct p, (Z.even (zsum c)); intuition (try discriminate; try lia).
Qed.

Section Final.
  Variable v : vlattice.
  Hypothesis Hvv : valid_vlattice v.
  Variable dbl : bool.
  Let lat := vl_lat v.
  Let Hv : valid_lattice lat := vv_valid v Hvv.
  Let ls := l_size lat.
  Let n := length ls.
  Let W := vector_size v dbl.
  Let HW : 0 < W := Wpos v Hvv dbl.
  Variables (r d : Z).
  Hypothesis Hr : is_rank lat r.
  Hypothesis Hd : is_direction ls d.
  Let ni := nodeinfo lat r.
  Let vs := v_sites v dbl ni.
  Let a := axis n d.
  Let nb c := neighbour lat c d.
  Let own c := node_rank lat (nb c).
  Let pos i := read_position v dbl r d i.
  Let HO := ho v dbl r d.

  Lemma vsf8 : 0 <= vs /\ vs * W = volume ni.
  Proof. apply (vs_facts v Hvv dbl r Hr). Qed.

  Lemma pos_index : forall c, holds lat r c ->
    pos (vsite_index v ni c) = neighbours v dbl r d (vec v dbl r c) * W + lane v dbl r c.
  Proof.
    intros c Hc. unfold pos, read_position. fold W.
    destruct (index_div v Hvv dbl r c Hr Hc) as [E1 E2]. fold lat in E1, E2. fold ni W in E1, E2.
    rewrite E1, E2. auto.
  Qed.

  Lemma pos_bnd : forall c, holds lat r c -> bnd v dbl d r c = true ->
    pos (vsite_index v ni c) = (HO + before v dbl r d (vec v dbl r c)) * W + lane v dbl r c /\
    vs * W <= pos (vsite_index v ni c).
  Proof.
    intros c Hc Hb. rewrite pos_index by auto.
    assert (Hvr := vec_range v Hvv dbl r c Hr Hc). fold lat in Hvr. fold ni vs in Hvr.
    destruct (neighbours_spec v Hvv dbl r d Hr Hd) as [_ En]. rewrite En by auto.
    assert (Hb' := Hb). rewrite (bnd_halo v Hvv dbl r d Hr Hd c Hc) in Hb'. rewrite Hb'.
    assert (Hho := ho_ge v dbl r d). fold lat in Hho. fold ni vs HO in Hho.
    assert (Hlc := lane_range v Hvv dbl r _ Hr Hc). fold W in Hlc.
    fold HO. split; auto. assert (0 <= before v dbl r d (vec v dbl r c)) by (unfold before, cnt; lia). nia.
  Qed.

  (** Positions of boundary sites are distinct. *)
  Lemma pos_inj : forall c c', holds lat r c -> holds lat r c' -> bnd v dbl d r c = true -> bnd v dbl d r c' = true ->
    pos (vsite_index v ni c) = pos (vsite_index v ni c') -> c = c'.
  Proof.
    intros c c' Hc Hc' Hb Hb' E. destruct (pos_bnd c Hc Hb) as [E1 _]. destruct (pos_bnd c' Hc' Hb') as [E2 _].
    rewrite E1, E2 in E.
    apply mul_add_inj in E; [|apply (lane_range v Hvv); auto|apply (lane_range v Hvv); auto].
    destruct E as [Ek El].
    assert (V1 := vec_range v Hvv dbl r c Hr Hc). assert (V2 := vec_range v Hvv dbl r c' Hr Hc').
    rewrite (bnd_halo v Hvv dbl r d Hr Hd c Hc) in Hb. rewrite (bnd_halo v Hvv dbl r d Hr Hd c' Hc') in Hb'.
    destruct (before_parity v Hvv dbl r Hr d Hd _ V1 Hb) as (_ & _ & P1).
    destruct (before_parity v Hvv dbl r Hr d Hd _ V2 Hb') as (_ & _ & P2).
    assert (Ev : vec v dbl r c = vec v dbl r c').
    { rewrite <- P1, <- P2. do 2 f_equal. lia. }
    apply (index_inj v Hvv r); auto. rewrite !(index_vec_lane v Hvv dbl) by auto. rewrite Ev, El. auto.
  Qed.

  Lemma off_bnd : forall c, holds lat r c -> off lat r d c = true -> bnd v dbl d r c = true.
  Proof.
    intros c Hc Ho. destruct (g_axis v Hvv dbl r d Hr Hd c Hc) as [G _].
    destruct (bnd v dbl d r c); auto. destruct (G eq_refl) as [E _]. fold lat in E. congruence.
  Qed.

  (** The off-node sites in index order: even ones first. *)
  Lemma flist_all : filter (offi v r d) (vI v r) = flist v r d ALL.
  Proof.
    cbn [flist]. apply sorted_ext.
    - apply filter_sorted, zrange_sorted.
    - apply sorted_app; try (apply filter_sorted, zrange_sorted).
      intros x y Hx Hy. apply filter_In in Hx, Hy. destruct Hx as [Hx Px], Hy as [Hy Py].
      apply andb_true_iff in Px, Py. destruct Px as [_ Px], Py as [_ Py]. apply negb_true_iff in Py.
      destruct (vcrd_spec v Hvv r x Hr Hx) as [Hhx Ix]. destruct (vcrd_spec v Hvv r y Hr Hy) as [Hhy Iy].
      apply (index_parity v Hvv r) in Px; auto. rewrite Ix in Px.
      assert (Hn : ~ y < n_even (nodeinfo (vl_lat v) r)).
      { intros Hlt. rewrite <- Iy in Hlt. apply (index_parity v Hvv r) in Hlt; auto. congruence. }
      lia.
    - intros x. rewrite in_app_iff, !filter_In. destruct (offi v r d x), (even_site (vcrd v r x)); cbn; tauto.
  Qed.

  Lemma flist_In : forall c p, holds lat r c -> off lat r d c = true -> has_parity p c ->
    In (vsite_index v ni c) (flist v r d p).
  Proof.
    intros c p Hc Ho Hp. apply has_parity_even in Hp.
    assert (Hi : In (vsite_index v ni c) (vI v r)) by (apply (vI_In v Hvv); auto; apply (index_range v Hvv); auto).
    assert (Ec : vcrd v r (vsite_index v ni c) = c) by (apply (crd_index v Hvv); auto).
    assert (Hof : offi v r d (vsite_index v ni c) = true) by (unfold offi; rewrite Ec; auto).
    destruct p; [| |rewrite <- flist_all]; cbn [flist]; apply filter_In; rewrite ?Ec, ?Hof, ?Hp; auto.
  Qed.

  Lemma flist_off : forall i p, In i (flist v r d p) -> In i (vI v r) /\ offi v r d i = true.
  Proof.
    intros i p Hi. destruct p; cbn [flist] in Hi; [| |apply in_app_or in Hi; destruct Hi as [Hi|Hi]];
      apply filter_In in Hi; destruct Hi as [H1 H2]; apply andb_true_iff in H2; tauto.
  Qed.

  (** ** The received message *)
  Section Message.
    Variable T : Type.
    Variables (st : Z -> Z -> T) (F : list Z -> T).
    Hypothesis Hst : vrepresents v st F.

    Variable c0 : list Z.
    Hypothesis Hc0 : holds lat r c0.
    Hypothesis Ho0 : off lat r d c0 = true.
    Let R := own c0.

    Lemma R_facts : is_rank lat R /\ R <> r /\ cn_rank (vfrom_node v r d) = R /\
      forall c, holds lat r c -> off lat r d c = true -> own c = R /\ holds lat R (nb c).
    Proof.
      destruct (own_spec v Hvv r d Hr Hd c0 Hc0) as [HR H0]. split; [exact HR|].
      split; [apply (face_R_neq lat Hv r d c0); auto|].
      split; [apply (vfrom_rank v Hvv r d c0 Hr Hd Hc0 Ho0)|].
      intros c Hc Ho. assert (E : own c = R) by (apply (face_same_rank lat Hv r d c0); auto).
      split; auto. destruct (own_spec v Hvv r d Hr Hd c Hc) as [_ H1]. change (holds lat (own c) (nb c)) in H1.
      rewrite E in H1. auto.
    Qed.

    Lemma nd_many : nth a (n_divisions lat) 0 <> 1.
    Proof.
      intros E. assert (H := local_no_off v Hvv dbl r Hr d Hd E c0 Hc0). unfold lat in *. congruence.
    Qed.

    Lemma sender_list : forall p, get_sitelist (vto_node v R d) p =
      map (fun i => vsite_index v (nodeinfo lat R) (vnb v r d i)) (flist v r d p).
    Proof.
      intros p. destruct R_facts as (HR & _).
      rewrite (vsend_list v Hvv R d p HR Hd). apply (message_order v Hvv r d Hr Hd c0 p Hc0 Ho0).
    Qed.

    Lemma sent_value : forall c k p, holds lat r c -> off lat r d c = true -> (k < length (flist v r d p))%nat ->
      nth k (flist v r d p) 0 = vsite_index v ni c ->
      nth k (get_sitelist (vto_node v R d) p) 0 = vsite_index v (nodeinfo lat R) (nb c).
    Proof.
      intros c k p Hc Ho Hk E. rewrite sender_list.
      rewrite nth_indep with (d' := vsite_index v (nodeinfo lat R) (vnb v r d 0)) by (rewrite map_length; auto).
      rewrite (map_nth (fun i => vsite_index v (nodeinfo lat R) (vnb v r d i))), E.
      unfold vnb, vcrd. fold lat ni. assert (Ec := crd_index v Hvv r c Hr Hc). fold lat in Ec. fold ni in Ec.
      rewrite Ec. auto.
    Qed.

    (** *** With a permutation: element by element *)
    Section Permuted.
      Hypothesis Hperm : is_permutation v dbl d = true.

      Lemma recv_list_eq : recv_list v dbl r d = map pos (flist v r d ALL).
      Proof.
        unfold recv_list. fold lat ls n. fold (axis n d). fold a. fold ni. rewrite Hperm.
        destruct (Z.ltb_spec 1 (nth a (n_divisions lat) 0)) as [Hl|Hl]; cbn [andb].
        - rewrite <- flist_all. f_equal. apply filter_ext_In. intros i Hi.
          assert (E := vneighb_on v Hvv r d i Hr Hd Hi). fold lat in E. fold ni in E.
          destruct (offi v r d i); cbn [negb] in E; lia.
        - exfalso. apply nd_many. destruct (grid_nth_pos lat Hv a (a_lt v d Hd)) as [_ H]. lia.
      Qed.

      Lemma recv_inj : forall k k', (k < length (flist v r d ALL))%nat -> (k' < length (flist v r d ALL))%nat ->
        nth k (recv_list v dbl r d) 0 = nth k' (recv_list v dbl r d) 0 -> k = k'.
      Proof.
        rewrite recv_list_eq. intros k k' Hk Hk' E. 
        assert (Hn : NoDup (map pos (flist v r d ALL))).
        { rewrite <- flist_all. apply NoDup_map_inj; [|apply NoDup_filter, zrange_NoDup].
          intros x y Hx Hy Exy. apply filter_In in Hx, Hy. destruct Hx as [Hx Ox], Hy as [Hy Oy].
          destruct (vcrd_spec v Hvv r x Hr Hx) as [Hhx Ix]. destruct (vcrd_spec v Hvv r y Hr Hy) as [Hhy Iy].
          fold lat in Ix, Iy. fold ni in Ix, Iy.
          rewrite <- Ix, <- Iy in Exy. apply pos_inj in Exy; auto; [congruence|apply off_bnd; auto|apply off_bnd; auto]. }
        rewrite (NoDup_nth _ 0) in Hn. apply Hn; rewrite ?map_length; auto.
      Qed.

      Let pk (p : parity) : Z -> T := pack T v dbl R d p (st R).

      (** Elements of the halo that are received. *)
      Lemma recv_spec : forall p mem c, holds lat r c -> off lat r d c = true -> has_parity p c ->
        place_recv T v dbl r d p (pk p) mem (pos (vsite_index v ni c)) = F (nb c).
      Proof.
        intros p mem c Hc Ho Hp. destruct R_facts as (HR & _ & _ & HRc). destruct (HRc c Hc Ho) as [_ HnR].
        assert (Hin := flist_In c p Hc Ho Hp).
        destruct (In_nth _ _ 0 Hin) as (k & Hk & Ek).
        assert (Hval : pk p (Z.of_nat k) = F (nb c)).
        { unfold pk, pack. rewrite Hperm, Nat2Z.id. rewrite (sent_value c k p Hc Ho Hk Ek). apply Hst; auto. }
        assert (Hh := flist_half v Hvv r d Hr Hd).
        assert (Hall : length (flist v r d ALL) = (2 * length (flist v r d EVEN))%nat).
        { cbn [flist] in *. rewrite app_length. lia. }
        assert (Hlen : Z.of_nat (length (recv_list v dbl r d)) = 2 * Z.of_nat (length (flist v r d EVEN))).
        { rewrite recv_list_eq, map_length. lia. }
        unfold place_recv. rewrite Hlen.
        assert (Hhalf : 2 * Z.of_nat (length (flist v r d EVEN)) / 2 = Z.of_nat (length (flist v r d EVEN)))
          by (rewrite Z.mul_comm; apply Z.div_mul; lia).
        rewrite Hhalf.
        set (start := match p with ODD => Z.of_nat (length (flist v r d EVEN)) | _ => 0 end).
        set (cnt' := match p with ALL => 2 * Z.of_nat (length (flist v r d EVEN)) | _ => Z.of_nat (length (flist v r d EVEN)) end).
        assert (Hkc : Z.of_nat k < cnt') by (unfold cnt'; destruct p; lia).
        assert (Hsc : start + cnt' <= Z.of_nat (length (flist v r d ALL))).
        { unfold start, cnt'. destruct p; lia. }
        assert (Hs0 : 0 <= start) by (unfold start; destruct p; lia).
        assert (Enth : nth (Z.to_nat (Z.of_nat k + start)) (recv_list v dbl r d) 0 = pos (vsite_index v ni c)).
        { rewrite recv_list_eq. rewrite nth_indep with (d' := pos 0) by (rewrite map_length; lia). rewrite map_nth.
          f_equal. rewrite <- Ek. unfold start. destruct p; cbn [flist] in Ek |- *.
          - rewrite Z.add_0_r, Nat2Z.id. rewrite app_nth1 by exact Hk. auto.
          - rewrite app_nth2 by lia. f_equal. lia.
          - rewrite Z.add_0_r, Nat2Z.id. auto. }
        rewrite <- Enth.
        etransitivity; [apply (fold_zupd_in Z T (fun i => nth (Z.to_nat (i + start)) (recv_list v dbl r d) 0) (pk p))|exact Hval].
        - apply NoDup_nth_map. intros x y Hx Hy E. apply recv_inj in E; lia.
        - apply zrange_In. lia.
      Qed.

      (** Other positions are kept. *)
      Lemma recv_keep : forall p buf mem j, (forall c, holds lat r c -> off lat r d c = true -> j <> pos (vsite_index v ni c)) ->
        place_recv T v dbl r d p buf mem j = mem j.
      Proof.
        intros p buf mem j Hj. unfold place_recv. set (start := match p with ODD => _ | _ => 0 end).
        set (k := Z.to_nat _).
        apply (fold_zupd_other Z T (fun i => nth (Z.to_nat (i + start)) (recv_list v dbl r d) 0)).
        intros Hin. apply in_map_iff in Hin. destruct Hin as (i & E & Hi). apply zrange_In in Hi.
        assert (Hstart : 0 <= start) by (unfold start; destruct p; try lia).
        assert (Hlt : (Z.to_nat (i + start) < length (recv_list v dbl r d))%nat).
        { unfold k, start in *. destruct p; lia. }
        assert (Hin2 := nth_In _ 0 Hlt). rewrite E in Hin2. rewrite recv_list_eq in Hin2.
        apply in_map_iff in Hin2. destruct Hin2 as (x & Ex & Hx). apply flist_off in Hx. destruct Hx as [Hx Ox].
        destruct (vcrd_spec v Hvv r x Hr Hx) as [Hhx Ix]. fold lat in Hhx, Ix. fold ni in Ix.
        apply (Hj (vcrd v r x) Hhx Ox). rewrite Ix. auto.
      Qed.
    End Permuted.

    (** *** Without: whole vectors *)
    Section Direct.
      Hypothesis Hnp : is_permutation v dbl d = false.

      Lemma N1 : nsub v dbl a = 1.
      Proof.
        assert (H := is_perm_nsub v Hvv dbl r d Hd). fold lat ls n a in H. rewrite Hnp in H.
        assert (H2 := nsub_pos v Hvv dbl r Hr d Hd). fold lat ls n a in H2. lia.
      Qed.

      Lemma offi_block : forall i, In i (vI v r) ->
        offi v r d i = halo v dbl r d (i / W) /\ even_site (vcrd v r i) = (i / W <? vs / 2).
      Proof.
        intros i Hi. destruct (vcrd_spec v Hvv r i Hr Hi) as [Hh Ei]. fold lat in Hh, Ei.
        destruct (index_div v Hvv dbl r _ Hr Hh) as [E1 _]. fold lat in E1. rewrite Ei in E1. fold W in E1. split.
        - unfold offi. fold lat. assert (E := single_off v Hvv dbl r Hr d Hd (vcrd v r i) N1 Hh nd_many). fold lat in E.
          rewrite E, E1. apply (bnd_halo v Hvv dbl r d Hr Hd); auto.
        - assert (P := vec_parity v Hvv dbl r _ Hr Hh). fold lat in P. fold ni vs in P. rewrite <- E1 in P.
          destruct (even_site (vcrd v r i)), (Z.ltb_spec (i / W) (vs / 2)); auto.
          + assert (i / W < vs / 2) by (apply P; auto). lia.
          + assert (false = true) by (apply P; auto). discriminate.
      Qed.

      Lemma flist_blocks : forall Q (P : Z -> bool), (forall i, In i (vI v r) -> P i = Q (i / W)) ->
        filter P (vI v r) = flat_map (fun u => zrange (u * W) (Z.to_nat W)) (filter Q (zrange 0 (Z.to_nat vs))).
      Proof.
        intros Q P H. destruct vsf8 as [V0 V1]. rewrite <- (filter_blocks Q W HW (Z.to_nat vs) 0) by lia.
        unfold vI. fold lat. fold ni. replace (0 * W) with 0 by ring.
        replace (Z.to_nat vs * Z.to_nat W)%nat with (Z.to_nat (volume ni)) by nia.
        apply filter_ext_In. exact H.
      Qed.

      Let QE u := halo v dbl r d u && (u <? vs / 2).
      Let QO u := halo v dbl r d u && negb (u <? vs / 2).
      Let VE := filter QE (zrange 0 (Z.to_nat vs)).
      Let VO := filter QO (zrange 0 (Z.to_nat vs)).

      Lemma hvs_app : hvs v dbl r d = VE ++ VO.
      Proof.
        unfold hvs. fold lat. fold ni vs. apply sorted_ext.
        - apply filter_sorted, zrange_sorted.
        - apply sorted_app; try (apply filter_sorted, zrange_sorted).
          intros x y Hx Hy. apply filter_In in Hx, Hy. unfold QE, QO in *. lia.
        - intros x. rewrite in_app_iff. unfold VE, VO. rewrite !filter_In. unfold QE, QO.
          destruct (halo v dbl r d x), (x <? vs / 2); cbn; tauto.
      Qed.

      Lemma VE_len : length VE = evn v dbl r d.
      Proof. unfold VE, QE. rewrite (filter_low v Hvv dbl r Hr d). reflexivity. Qed.

      Lemma flist_E : flist v r d EVEN = flat_map (fun u => zrange (u * W) (Z.to_nat W)) VE.
      Proof. cbn [flist]. apply flist_blocks. intros i Hi. destruct (offi_block i Hi) as [-> ->]. auto. Qed.
      Lemma flist_O : flist v r d ODD = flat_map (fun u => zrange (u * W) (Z.to_nat W)) VO.
      Proof. cbn [flist]. apply flist_blocks. intros i Hi. destruct (offi_block i Hi) as [-> ->]. auto. Qed.
      Lemma flist_A : flist v r d ALL = flat_map (fun u => zrange (u * W) (Z.to_nat W)) (VE ++ VO).
      Proof. rewrite flat_map_app, <- flist_E, <- flist_O. auto. Qed.

      Lemma flat_len : forall l, length (flat_map (fun u => zrange (u * W) (Z.to_nat W)) l) = (length l * Z.to_nat W)%nat.
      Proof. induction l; cbn [flat_map length Nat.mul]; auto. rewrite app_length, zrange_length, IHl. auto. Qed.

      (** Where a boundary site is in the list of its parity. *)
      Definition offs (p : parity) : Z := match p with ODD => Z.of_nat (evn v dbl r d) | _ => 0 end.

      Lemma direct_nth : forall c p l, holds lat r c -> bnd v dbl d r c = true -> has_parity p c -> 0 <= l < W ->
        let k := before v dbl r d (vec v dbl r c) in
        offs p <= k /\
        ((Z.to_nat (k - offs p)) * Z.to_nat W + Z.to_nat l < length (flist v r d p))%nat /\
        nth (Z.to_nat (k - offs p) * Z.to_nat W + Z.to_nat l) (flist v r d p) 0 = vec v dbl r c * W + l.
      Proof.
        intros c p l Hc Hb Hp Hl k. apply has_parity_even in Hp.
        assert (Hvr := vec_range v Hvv dbl r c Hr Hc). fold lat in Hvr. fold ni vs in Hvr.
        assert (Hb' := Hb). rewrite (bnd_halo v Hvv dbl r d Hr Hd c Hc) in Hb'.
        destruct (before_parity v Hvv dbl r Hr d Hd _ Hvr Hb') as (P1 & P2 & P3). fold k in P1, P2, P3.
        fold lat in P2. fold ni vs in P2.
        assert (Hpar := vec_parity v Hvv dbl r c Hr Hc). fold lat in Hpar. fold ni vs in Hpar.
        rewrite hvs_app in P3. assert (HE := VE_len).
        assert (HA : Z.of_nat (length (VE ++ VO)) = 2 * Z.of_nat (evn v dbl r d)).
        { rewrite <- hvs_app. apply (hvs_even v Hvv dbl r Hr d Hd). }
        assert (Key : forall l0 q, (Z.to_nat q < length l0)%nat -> nth (Z.to_nat q) l0 0 = vec v dbl r c ->
          (Z.to_nat q * Z.to_nat W + Z.to_nat l < length (flat_map (fun u => zrange (u * W) (Z.to_nat W)) l0))%nat /\
          nth (Z.to_nat q * Z.to_nat W + Z.to_nat l) (flat_map (fun u => zrange (u * W) (Z.to_nat W)) l0) 0 = vec v dbl r c * W + l).
        { intros l0 q Hq E. destruct (nth_flat_blocks W HW l0 (Z.to_nat q) (Z.to_nat l) Hq ltac:(lia)) as [E1 E2].
          split; [rewrite flat_len; nia|]. rewrite E1, E, Z2Nat.id by lia. auto. }
        rewrite app_length in HA.
        destruct p; cbn [offs] in *.
        - split; [lia|]. rewrite flist_E. rewrite Z.sub_0_r. assert (k < Z.of_nat (evn v dbl r d)) by (apply P2, Hpar; auto).
          rewrite app_nth1 in P3 by lia. apply Key; auto. lia.
        - assert (Hk : Z.of_nat (evn v dbl r d) <= k).
          { destruct (Z_lt_le_dec k (Z.of_nat (evn v dbl r d))) as [Hlt|]; auto. apply P2, Hpar in Hlt. congruence. }
          split; [lia|]. rewrite flist_O. rewrite app_nth2 in P3 by lia. apply Key; [lia|].
          rewrite <- P3. f_equal. lia.
        - split; [lia|]. rewrite flist_A. rewrite Z.sub_0_r. apply Key; auto. rewrite app_length. lia.
      Qed.

      Lemma from_even : cn_even (vfrom_node v r d) = Z.of_nat (evn v dbl r d) * W.
      Proof.
        assert (E := vfrom_sites v r d EVEN Hr Hd). cbn [n_sites] in E. rewrite E, flist_E, flat_len, VE_len. nia.
      Qed.

      Lemma direct_spec : forall p mem c, holds lat r c -> off lat r d c = true -> has_parity p c ->
        place_direct T v dbl r d p (pack T v dbl R d p (st R)) mem (pos (vsite_index v ni c)) = F (nb c).
      Proof.
        intros p mem c Hc Ho Hp. destruct R_facts as (HR & _ & _ & HRc). destruct (HRc c Hc Ho) as [HoR HnR].
        assert (Hb := off_bnd c Hc Ho). destruct (pos_bnd c Hc Hb) as [Epos _]. rewrite Epos.
        assert (Hlc := lane_range v Hvv dbl r _ Hr Hc). fold W in Hlc.
        destruct (direct_nth c p (lane v dbl r c) Hc Hb Hp Hlc) as (D1 & D2 & D3).
        destruct (direct_nth c p 0 Hc Hb Hp ltac:(lia)) as (_ & D4 & D5).
        set (k := before v dbl r d (vec v dbl r c)) in *.
        assert (Hvr := vec_range v Hvv dbl r c Hr Hc). fold lat in Hvr. fold ni vs in Hvr.
        destruct (vc_spec v Hvv dbl r d Hr _ Hvr) as (Hc1 & Ev1 & El1 & _). fold lat in Hc1.
        set (x := vc v dbl r (vec v dbl r c)) in *.
        assert (Hxi : vsite_index v ni x = vec v dbl r c * W).
        { assert (E := index_vec_lane v Hvv dbl r _ Hr Hc1). rewrite Ev1, El1, Z.add_0_r in E. exact E. }
        assert (Hbx : bnd v dbl d r x = true).
        { rewrite (bnd_halo v Hvv dbl r d Hr Hd x Hc1), Ev1, <- (bnd_halo v Hvv dbl r d Hr Hd c Hc). auto. }
        assert (Hox : off lat r d x = true).
        { assert (E := single_off v Hvv dbl r Hr d Hd x N1 Hc1 nd_many). fold lat in E. rewrite E. auto. }
        destruct (HRc x Hc1 Hox) as [HoRx HnRx].
        rewrite Z.add_0_r in D5. rewrite <- Hxi in D5. cbn [Z.to_nat] in D4, D5.
        assert (Hs := sent_value x _ p Hc1 Hox D4 D5).
        assert (Hval : pack T v dbl R d p (st R) ((k - offs p) * W + lane v dbl r c) = F (nb c)).
        { unfold pack. rewrite Hnp. fold W.
          assert (Eq : ((k - offs p) * W + lane v dbl r c) / W = k - offs p).
          { rewrite Z.add_comm, Z.div_add by lia. rewrite Z.div_small by lia. lia. }
          assert (Em : ((k - offs p) * W + lane v dbl r c) mod W = lane v dbl r c).
          { rewrite Z.add_comm, Z.mod_add by lia. apply Z.mod_small. lia. }
          rewrite Eq, Em. replace (Z.to_nat ((k - offs p) * W)) with (Z.to_nat (k - offs p) * Z.to_nat W + 0)%nat by nia.
          rewrite Hs. rewrite <- (Hst R (nb c) HR HnR). f_equal.
          assert (I1 := index_vec_lane v Hvv dbl R _ HR HnRx). assert (I2 := index_vec_lane v Hvv dbl R _ HR HnR).
          fold lat W in I1, I2. fold lat. rewrite I1, I2.
          assert (S1 : lane v dbl (own x) (nb x) = lane v dbl r x) by exact (single_lane v Hvv dbl r Hr d Hd x N1 Hc1).
          assert (S2 : lane v dbl (own c) (nb c) = lane v dbl r c) by exact (single_lane v Hvv dbl r Hr d Hd c N1 Hc).
          rewrite HoRx in S1. rewrite HoR in S2. rewrite S1, S2, El1.
          assert (Q : vec v dbl (own x) (nb x) = vec v dbl (own x) (nb c)).
          { apply (nb_vec v Hvv dbl r d Hr Hd x c Hc1 Hc); auto. transitivity R; auto. }
          rewrite HoRx in Q. rewrite Q. lia. }
        unfold place_direct. rewrite (vfrom_sites v r d p Hr Hd), Nat2Z.id, from_even. fold W. fold (ho v dbl r d). fold HO.
        set (o := match p with ODD => _ | _ => 0 end).
        assert (Eo : o = offs p * W) by (unfold o, offs; destruct p; lia).
        replace ((HO + k) * W + lane v dbl r c) with (HO * W + o + ((k - offs p) * W + lane v dbl r c)) by (rewrite Eo; ring).
        etransitivity; [apply (fold_zupd_in Z T (fun i => HO * W + o + i) (pack T v dbl R d p (st R)))|exact Hval].
        - apply NoDup_nth_map. intros. lia.
        - apply zrange_In. assert (0 <= (k - offs p) * W) by nia. nia.
      Qed.

      Lemma direct_keep : forall p buf mem j, j < vs * W ->
        place_direct T v dbl r d p buf mem j = mem j.
      Proof.
        intros p buf mem j Hj. unfold place_direct. rewrite from_even. fold W. fold (ho v dbl r d). fold HO.
        assert (Hho := ho_ge v dbl r d). fold lat in Hho. fold ni vs HO in Hho.
        set (o := match p with ODD => _ | _ => 0 end).
        assert (0 <= o) by (unfold o; destruct p; nia).
        apply (fold_zupd_other Z T (fun i => HO * W + o + i)). intros Hin. apply in_map_iff in Hin.
        destruct Hin as (i & E & Hi). apply zrange_In in Hi. nia.
      Qed.
    End Direct.
  End Message.

  (** ** The whole update *)
  Lemma exists_off : (exists c0, holds lat r c0 /\ off lat r d c0 = true) \/
    (forall c, holds lat r c -> off lat r d c = false).
  Proof.
    destruct (existsb (off lat r d) (rank_sites lat r)) eqn:E.
    - left. apply existsb_exists in E. destruct E as (c & Hc & Ho). exists c. split; auto. apply rank_sites_In; auto.
    - right. intros c Hc. destruct (off lat r d c) eqn:Ho; auto.
      assert (Hx : existsb (off lat r d) (rank_sites lat r) = true).
      { apply existsb_exists. exists c. split; auto. apply rank_sites_In; auto. }
      congruence.
  Qed.

  Theorem vgather_spec : forall (T : Type) (st : Z -> Z -> T) (F : list Z -> T) p,
    vrepresents v st F ->
    let mem := vgather T v dbl d p (fun _ x => x) (fun _ x => x) st r in
    (forall i, i < volume ni -> mem i = st r i) /\
    (forall c, holds lat r c -> has_parity p c ->
       mem (read_position v dbl r d (vsite_index v ni c)) = F (neighbour lat c d)).
  Proof.
    intros T st F p Hst mem. destruct vsf8 as [V0 V1].
    set (lmem := set_local_boundary T v dbl r d p (fun x => x) (st r)).
    assert (Hlow : forall i, i < volume ni -> lmem i = st r i).
    { intros i Hi. apply (local_low v Hvv dbl r Hr d Hd). fold lat. fold ni vs W. lia. }
    assert (Hin : forall c, holds lat r c -> bnd v dbl d r c = false ->
      pos (vsite_index v ni c) = vsite_index v ni (nb c) /\ holds lat r (nb c)).
    { intros c Hc Hb. rewrite pos_index by auto. split; [apply (inner_neighbour v Hvv dbl r d Hr Hd c Hc Hb)|].
      destruct (nb_lane_in v Hvv dbl r d Hr Hd c Hc Hb) as [E _]. change (own c = r) in E.
      destruct (own_spec v Hvv r d Hr Hd c Hc) as [_ H1]. change (holds lat (own c) (nb c)) in H1. rewrite E in H1. auto. }
    assert (Hloc : forall c, holds lat r c -> has_parity p c -> off lat r d c = false ->
      lmem (pos (vsite_index v ni c)) = F (nb c)).
    { intros c Hc Hp Ho. destruct (bnd v dbl d r c) eqn:Hb.
      - destruct (pos_bnd c Hc Hb) as [-> _].
        etransitivity; [apply (local_halo v Hvv dbl r Hr d Hd T p (fun x => x) (st r) c Hc Hp Hb Ho)|].
        apply Hst; auto. apply (on_index v Hvv r Hr d Hd c Hc Ho).
      - destruct (Hin c Hc Hb) as [-> Hn]. rewrite Hlow; [apply Hst; auto|]. apply (index_range v Hvv); auto. }
    unfold mem, vgather. fold lmem.
    destruct exists_off as [(c0 & Hc0 & Ho0)|Hnone].
    - destruct (R_facts c0 Hc0 Ho0) as (HR & HRr & Ecn & HRc).
      assert (Eb : (cn_rank (vfrom_node v r d) =? r) = false) by (apply Z.eqb_neq; congruence).
      rewrite Eb, Ecn. destruct (is_permutation v dbl d) eqn:Hperm.
      + split.
        * intros i Hi. rewrite (recv_keep T st c0 Hc0 Ho0 Hperm); auto. intros c Hc Ho E.
          destruct (pos_bnd c Hc (off_bnd c Hc Ho)) as [_ H]. lia.
        * intros c Hc Hp. fold (pos (vsite_index v ni c)). destruct (off lat r d c) eqn:Ho.
          -- apply (recv_spec T st F Hst c0 Hc0 Ho0 Hperm p lmem c Hc Ho Hp).
          -- rewrite (recv_keep T st c0 Hc0 Ho0 Hperm); [apply Hloc; auto|].
             intros c' Hc' Ho' E. assert (Hb' := off_bnd c' Hc' Ho'). destruct (pos_bnd c' Hc' Hb') as [_ Hge].
             destruct (bnd v dbl d r c) eqn:Hb.
             ++ apply pos_inj in E; auto. congruence.
             ++ destruct (Hin c Hc Hb) as [E1 Hn]. assert (Hx := index_range v Hvv r _ Hr Hn).
                fold lat in Hx. fold ni in Hx. lia.
      + split.
        * intros i Hi. rewrite (direct_keep T c0 Hc0 Ho0 Hperm) by lia. auto.
        * intros c Hc Hp. fold (pos (vsite_index v ni c)). destruct (off lat r d c) eqn:Ho.
          -- apply (direct_spec T st F Hst c0 Hc0 Ho0 Hperm p lmem c Hc Ho Hp).
          -- assert (E := single_off v Hvv dbl r Hr d Hd c (N1 c0 Hperm) Hc (nd_many c0 Hc0 Ho0)). fold lat in E.
             rewrite Ho in E. destruct (Hin c Hc (eq_sym E)) as [E1 Hn].
             assert (Hx := index_range v Hvv r _ Hr Hn). fold lat in Hx. fold ni in Hx.
             rewrite (direct_keep T c0 Hc0 Ho0 Hperm) by lia. apply Hloc; auto.
    - assert (Eb : (cn_rank (vfrom_node v r d) =? r) = true).
      { apply Z.eqb_eq. apply (vfrom_self v Hvv r d Hr Hd Hnone). }
      rewrite Eb. split; [exact Hlow|]. intros c Hc Hp. apply Hloc; auto.
  Qed.
End Final.
