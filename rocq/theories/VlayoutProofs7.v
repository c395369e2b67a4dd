(** Boundary permutations, halo indices and the halo update. *)
From Coq Require Import Sorted.
From Verif Require Import Common LayoutModel LayoutSpec LayoutProofs1 LayoutProofs2 LayoutProofs4
  LayoutProofs5 LayoutProofs6 LayoutProofs7 VlayoutModel VlayoutSpec VlayoutProofs1 VlayoutProofs2
  VlayoutProofs3 VlayoutProofs4 VlayoutProofs5 VlayoutProofs6.

(** ** Arrays filled by a loop *)

Lemma fold_zupd_other : forall (A V : Type) (f : A -> Z) (g : A -> V) l m j,
  ~ In j (map f l) -> fold_left (fun m x => zupd m (f x) (g x)) l m j = m j.
Proof.
  induction l; intros m j Hj; cbn [fold_left]; auto. cbn [map In] in Hj. rewrite IHl by tauto.
  apply zupd_other. intros ->. tauto.
Qed.

Lemma fold_zupd_in : forall (A V : Type) (f : A -> Z) (g : A -> V) l m x,
  NoDup (map f l) -> In x l -> fold_left (fun m x => zupd m (f x) (g x)) l m (f x) = g x.
Proof.
  induction l; intros m x Hn Hx; [destruct Hx|]. cbn [map] in Hn. inversion Hn; subst. cbn [fold_left].
  destruct Hx as [->|Hx]; auto. rewrite fold_zupd_other by auto. apply zupd_same.
Qed.

Lemma NoDup_nth_map : forall (f : Z -> Z) k a, (forall x y, a <= x < a + Z.of_nat k -> a <= y < a + Z.of_nat k -> f x = f y -> x = y) ->
  NoDup (map f (zrange a k)).
Proof.
  intros f k a H. apply NoDup_map_inj; [|apply zrange_NoDup]. intros x y Hx Hy E.
  apply zrange_In in Hx, Hy. auto.
Qed.

Lemma mul_add_inj : forall w a b i j, 0 <= i < w -> 0 <= j < w -> a * w + i = b * w + j -> a = b /\ i = j.
Proof. intros. assert (a = b) by nia. split; [auto|nia]. Qed.

(** Whole blocks of a range. *)
Lemma filter_blocks : forall (Q : Z -> bool) w, 0 < w -> forall k a, 0 <= a ->
  filter (fun i => Q (i / w)) (zrange (a * w) (k * Z.to_nat w)) =
  flat_map (fun u => zrange (u * w) (Z.to_nat w)) (filter Q (zrange a k)).
Proof.
  intros Q w Hw. induction k; intros a Ha; [reflexivity|].
  cbn [Nat.mul zrange filter]. rewrite zrange_app, filter_app.
  assert (E : filter (fun i => Q (i / w)) (zrange (a * w) (Z.to_nat w)) =
    if Q a then zrange (a * w) (Z.to_nat w) else []).
  { assert (E1 : filter (fun i => Q (i / w)) (zrange (a * w) (Z.to_nat w)) =
      filter (fun _ => Q a) (zrange (a * w) (Z.to_nat w))).
    { apply filter_ext_In. intros x Hx. apply zrange_In in Hx. f_equal.
      symmetry. apply Z.div_unique with (x - a * w); lia. }
    rewrite E1. destruct (Q a).
    - clear. induction (zrange (a * w) (Z.to_nat w)); cbn [filter]; congruence.
    - clear. induction (zrange (a * w) (Z.to_nat w)); cbn [filter]; congruence. }
  rewrite E. replace (a * w + Z.of_nat (Z.to_nat w)) with ((a + 1) * w) by lia.
  rewrite IHk by lia. destruct (Q a); auto.
Qed.

Lemma nth_flat_blocks : forall w, 0 < w -> forall l k i, (k < length l)%nat -> (i < Z.to_nat w)%nat ->
  nth (k * Z.to_nat w + i) (flat_map (fun u => zrange (u * w) (Z.to_nat w)) l) 0 = nth k l 0 * w + Z.of_nat i /\
  length (flat_map (fun u => zrange (u * w) (Z.to_nat w)) l) = (length l * Z.to_nat w)%nat.
Proof.
  intros w Hw. induction l as [|u l IH]; intros k i Hk Hi; [simpl in Hk; lia|].
  cbn [flat_map length]. rewrite app_length, zrange_length. destruct k.
  - cbn [nth Nat.mul Nat.add]. rewrite app_nth1 by (rewrite zrange_length; auto). rewrite zrange_nth by auto.
    split; auto. destruct l as [|u' l]; [simpl; lia|].
    destruct (IH 0%nat i ltac:(simpl; lia) Hi) as [_ ->]. lia.
  - cbn [nth Nat.mul]. simpl in Hk. destruct (IH k i ltac:(lia) Hi) as [E1 E2].
    rewrite app_nth2 by (rewrite zrange_length; lia). rewrite zrange_length.
    replace (Z.to_nat w + k * Z.to_nat w + i - Z.to_nat w)%nat with (k * Z.to_nat w + i)%nat by lia.
    rewrite E1, E2. auto.
Qed.

Section Update.
  Variable v : vlattice.
  Hypothesis Hvv : valid_vlattice v.
  Variable dbl : bool.
  Let lat := vl_lat v.
  Let Hv : valid_lattice lat := vv_valid v Hvv.
  Let ls := l_size lat.
  Let n := length ls.
  Let W := vector_size v dbl.
  Let HW : 0 < W := Wpos v Hvv dbl.
  Variables (r : Z).
  Hypothesis Hr : is_rank lat r.
  Let ni := nodeinfo lat r.
  Let vs := v_sites v dbl ni.

  (** ** The permutation *)
  Section Perm.
    Variable d : Z.
    Hypothesis Hd : is_direction ls d.
    Let a := axis n d.
    Let nb c := neighbour lat c d.
    Let own c := node_rank lat (nb c).
    Hypothesis Hup : is_up_dir (Z.of_nat n) d = true.

    Lemma corner_nth : forall mn sz j, length sz = length mn -> (j < length mn)%nat ->
      nth j (corner mn sz) 0 = nth j mn 0 + nth j sz 0 - 1.
    Proof. induction mn; destruct sz; simpl; intros; try lia. destruct j; auto. apply IHmn; lia. Qed.
    Lemma corner_length : forall mn sz, length sz = length mn -> length (corner mn sz) = length mn.
    Proof. induction mn; destruct sz; simpl; intros; try lia. rewrite IHmn; lia. Qed.

    Let k0 := corner (n_min ni) (subnode_size v dbl ni).

    Lemma k0_spec : holds lat r k0 /\ lane v dbl r k0 = 0 /\
      forall j, (j < n)%nat -> place_in_subnode v dbl r k0 j = sub_extent v dbl r j - 1.
    Proof.
      destruct (rank_lens v Hvv r) as [L1 L2]. unfold mnr, szr in L1, L2. fold lat in L1, L2.
      fold ls in L1, L2. fold n in L1, L2. fold ni in L1, L2.
      assert (L3 := subnode_size_len v Hvv dbl r). fold lat ls n in L3. fold ni in L3.
      assert (Lk : length k0 = n) by (unfold k0; rewrite corner_length; lia).
      assert (Hk : forall j, (j < n)%nat -> nth j k0 0 - nth j (n_min ni) 0 = sub_extent v dbl r j - 1).
      { intros j Hj. unfold k0. rewrite corner_nth by lia.
        assert (Hs := nth_subnode_size v Hvv dbl r d Hr j Hj). fold lat in Hs. fold ni in Hs. rewrite Hs. lia. }
      assert (Hh : holds lat r k0).
      { split; [fold ni; lia|]. split; [fold ni; lia|]. rewrite Lk. intros j Hj. specialize (Hk j Hj). fold ni.
        destruct (ext_facts v Hvv dbl r j Hr Hj) as (E1 & E2 & E3). fold lat in E3. fold ni in E3. nia. }
      assert (Hsp : forall j, (j < n)%nat -> subnode_of v dbl r k0 j = 0 /\
        place_in_subnode v dbl r k0 j = sub_extent v dbl r j - 1).
      { intros j Hj. destruct (ext_facts v Hvv dbl r j Hr Hj) as (E1 & _).
        apply (sub_place_of v); auto; [lia|]. fold lat. fold ni. rewrite Hk by auto. lia. }
      split; auto. split; [|intros; apply Hsp; auto]. apply (lane_zero v Hvv); auto. intros. apply Hsp; auto.
    Qed.

    (** The site of the corner's vector in lane [l]. *)
    Definition kx (l : Z) : list Z := vcoordinates v ni (vsite_index v ni k0 + l).

    Lemma kx_spec : forall l, 0 <= l < W -> holds lat r (kx l) /\ lane v dbl r (kx l) = l /\
      bnd v dbl d r (kx l) = true.
    Proof.
      intros l Hl. destruct k0_spec as (H1 & H2 & H3).
      assert (Hi := index_vec_lane v Hvv dbl r k0 Hr H1). rewrite H2 in Hi. fold lat W in Hi. fold ni in Hi.
      assert (Hvr := vec_range v Hvv dbl r k0 Hr H1). fold lat in Hvr. fold ni vs in Hvr.
      destruct (vs_facts v Hvv dbl r Hr) as [V0 V1]. fold lat in V0, V1. fold ni in V0, V1. fold vs in V0, V1. fold W in V1.
      destruct (crd_spec v Hvv r (vsite_index v ni k0 + l) Hr ltac:(fold lat; fold ni; nia)) as [Hh E].
      fold lat in Hh, E. fold ni in E. fold (kx l) in E. fold ni in Hh. fold (kx l) in Hh.
      destruct (index_div v Hvv dbl r (kx l) Hr Hh) as [E1 E2]. fold lat in E1, E2. fold ni W in E1, E2.
      rewrite E in E1, E2. rewrite Hi, Z.add_0_r in E1, E2.
      rewrite Z.add_comm in E1, E2. rewrite Z.div_add in E1 by lia. rewrite Z.mod_add in E2 by lia.
      rewrite Z.div_small in E1 by lia. rewrite Z.mod_small in E2 by lia.
      split; auto. split; auto. cbn [Z.add] in E1. apply (vec_place v Hvv) in E1; auto.
      assert (Ha : (a < n)%nat) by (apply a_lt; auto). specialize (E1 a Ha). rewrite H3 in E1 by auto.
      unfold bnd. fold lat ls n a. rewrite <- E1. unfold sgn. rewrite Hup. apply negb_true_iff.
      apply andb_false_iff. right. lia.
    Qed.

    Lemma up_perm_eq : forall l, up_permutation v dbl r d l = lane v dbl (own (kx l)) (nb (kx l)) \/ ~ 0 <= l < W.
    Proof.
      intros l. destruct (Z_le_dec 0 l), (Z_lt_dec l W); try (right; lia). left.
      unfold up_permutation. fold lat. fold ni. fold k0. fold (kx l). fold (nb (kx l)). fold (own (kx l)). fold W.
      destruct (kx_spec l ltac:(lia)) as (H1 & _). destruct (own_spec v Hvv r d Hr Hd (kx l) H1) as [HR H2].
      apply (index_div v Hvv dbl _ _ HR H2).
    Qed.

    Lemma up_perm_spec : forall c, holds lat r c -> bnd v dbl d r c = true ->
      up_permutation v dbl r d (lane v dbl r c) = lane v dbl (own c) (nb c).
    Proof.
      intros c Hc Hb. assert (Hl := lane_range v Hvv dbl r c Hr Hc). fold W in Hl.
      destruct (kx_spec _ Hl) as (H1 & H2 & H3).
      destruct (up_perm_eq (lane v dbl r c)) as [->|]; [|tauto].
      apply (nb_lane_bnd v Hvv dbl r d Hr Hd); auto.
    Qed.

    Lemma up_perm_range : forall l, 0 <= l < W -> 0 <= up_permutation v dbl r d l < W.
    Proof.
      intros l Hl. destruct (up_perm_eq l) as [->|]; [|tauto].
      destruct (kx_spec l Hl) as (H1 & _). destruct (own_spec v Hvv r d Hr Hd (kx l) H1) as [HR H2].
      apply (lane_range v Hvv dbl); auto.
    Qed.

    (** A lane function: subnodes of site and neighbour. *)
    Lemma bnd_subnodes : forall c j, holds lat r c -> bnd v dbl d r c = true -> (j < n)%nat ->
      subnode_of v dbl (own c) (nb c) j =
      if (j =? a)%nat then (subnode_of v dbl r c a + sgn n d) mod nsub v dbl a else subnode_of v dbl r c j.
    Proof.
      intros c j Hc Hb Hj. destruct (Nat.eqb_spec j a) as [->|Hja].
      - destruct (g_axis v Hvv dbl r d Hr Hd c Hc) as [_ G]. destruct (G Hb) as (_ & E & _). exact E.
      - destruct (g_other v Hvv dbl r d Hr Hd c Hc j Hj Hja) as (_ & E & _). exact E.
    Qed.

    Lemma up_perm_inj : forall l l', 0 <= l < W -> 0 <= l' < W ->
      up_permutation v dbl r d l = up_permutation v dbl r d l' -> l = l'.
    Proof.
      intros l l' Hl Hl' E. destruct (up_perm_eq l) as [E1|]; [|tauto]. destruct (up_perm_eq l') as [E2|]; [|tauto].
      rewrite E1, E2 in E. destruct (kx_spec l Hl) as (H1 & L1 & B1). destruct (kx_spec l' Hl') as (H2 & L2 & B2).
      destruct (own_spec v Hvv r d Hr Hd _ H1) as [HR1 N1]. destruct (own_spec v Hvv r d Hr Hd _ H2) as [HR2 N2].
      assert (Es := proj1 (lane_subnode v Hvv dbl _ _ _ _ HR1 N1 HR2 N2) E).
      rewrite <- L1, <- L2. apply (lane_subnode v Hvv dbl r _ r _ Hr H1 Hr H2). intros j Hj.
      specialize (Es j Hj). fold lat in Es.
      change (subnode_of v dbl (own (kx l)) (nb (kx l)) j = subnode_of v dbl (own (kx l')) (nb (kx l')) j) in Es.
      rewrite !bnd_subnodes in Es by auto. destruct (Nat.eqb_spec j a) as [Eja|]; auto. rewrite Eja.
      assert (Ha : (a < n)%nat) by (apply a_lt; auto).
      destruct (sub_place v Hvv dbl r _ a Hr H1 Ha) as (_ & _ & Q1).
      destruct (sub_place v Hvv dbl r _ a Hr H2 Ha) as (_ & _ & Q2).
      set (N := nsub v dbl a) in *. set (q := subnode_of v dbl r (kx l) a) in *.
      set (q' := subnode_of v dbl r (kx l') a) in *. unfold sgn in Es. rewrite Hup in Es.
      destruct (Z.eq_dec (q + 1) N) as [K|K], (Z.eq_dec (q' + 1) N) as [K'|K']; try lia.
      - rewrite K, Z.mod_same, Z.mod_small in Es by lia. lia.
      - rewrite K', Z.mod_same, Z.mod_small in Es by lia. lia.
      - rewrite !Z.mod_small in Es by lia. lia.
    Qed.
  End Perm.

  Lemma oppd_up : forall d, is_direction ls d -> is_up_dir (Z.of_nat n) d = false ->
    is_up_dir (Z.of_nat n) (oppd lat d) = true.
  Proof. intros d Hd. unfold is_up_dir, oppd, opp_dir, is_direction in *. fold ls n. fold n in Hd. lia. Qed.

  Lemma permutation_spec : forall d c, is_direction ls d -> holds lat r c -> bnd v dbl d r c = true ->
    boundary_permutation v dbl r d (lane v dbl r c) =
    lane v dbl (node_rank lat (neighbour lat c d)) (neighbour lat c d).
  Proof.
    intros d c Hd Hc Hb. unfold boundary_permutation. fold lat ls n.
    destruct (is_up_dir (Z.of_nat n) d) eqn:Hup; [apply up_perm_spec; auto|].
    assert (Hd' := oppd_direction lat d Hd). assert (Hup' := oppd_up d Hd Hup).
    change (opp_dir (Z.of_nat n) d) with (oppd lat d). set (e := oppd lat d) in *.
    destruct (own_spec v Hvv r d Hr Hd c Hc) as [HR HN]. fold lat in HR, HN.
    set (c1 := neighbour lat c d) in *. set (R := node_rank lat c1) in *.
    assert (Hl := lane_range v Hvv dbl R c1 HR HN). fold W in Hl. set (l1 := lane v dbl R c1) in *.
    destruct (kx_spec e Hd' Hup' l1 Hl) as (K1 & K2 & K3).
    assert (Eu : up_permutation v dbl r e l1 = lane v dbl r c).
    { rewrite <- K2. rewrite up_perm_spec by auto.
      destruct (own_spec v Hvv r e Hr Hd' _ K1) as [HR' HN']. fold lat in HR', HN'.
      apply (lane_subnode v Hvv dbl); auto. intros j Hj.
      rewrite bnd_subnodes by auto.
      assert (Ea : axis n e = axis n d) by (apply axis_opp; auto).
      assert (Et : sgn n e = - sgn n d) by (apply sgn_opp; auto). rewrite Ea, Et.
      assert (Es := proj1 (lane_subnode v Hvv dbl r _ R _ Hr K1 HR HN) K2).
      assert (Eb := fun j => bnd_subnodes d Hd c j Hc Hb).
      assert (Ha : (axis n d < n)%nat) by (apply a_lt; auto).
      destruct (Nat.eqb_spec j (axis n d)) as [->|Hja].
      - rewrite Es by auto. specialize (Eb _ Ha). rewrite Nat.eqb_refl in Eb.
        fold lat in Eb. fold c1 in Eb. fold R in Eb. rewrite Eb.
        destruct (sub_place v Hvv dbl r _ _ Hr Hc Ha) as (_ & _ & Q).
        replace ((subnode_of v dbl r c (axis n d) + sgn n d) mod nsub v dbl (axis n d) + - sgn n d) with
          ((subnode_of v dbl r c (axis n d) + sgn n d) mod nsub v dbl (axis n d) - sgn n d) by ring.
        apply mod_up_down; lia.
      - rewrite Es by auto. specialize (Eb _ Hj). destruct (Nat.eqb_spec j (axis n d)); [tauto|]. exact Eb. }
    unfold down_permutation. fold W. rewrite <- Eu.
    apply (fold_zupd_in Z Z (up_permutation v dbl r e) (fun i => i)).
    - apply NoDup_nth_map. intros x y Hx Hy. apply (up_perm_inj e Hd' Hup'); fold W; lia.
    - apply zrange_In. lia.
  Qed.

  (** ** Halo indices *)
  Variable d : Z.
  Hypothesis Hd : is_direction ls d.
  Let a := axis n d.
  Let t := sgn n d.
  Let nb c := neighbour lat c d.
  Let own c := node_rank lat (nb c).

  Lemma vsf : 0 <= vs /\ vs * W = volume ni.
  Proof. apply (vs_facts v Hvv dbl r Hr). Qed.

  Lemma neighbours_dir_ge : forall e c0, c0 <= fst (neighbours_dir v dbl r e c0).
  Proof.
    intros e c0. unfold neighbours_dir.
    assert (K : forall l s, fst s <= fst (fold_left (neighbours_step v dbl r e) l s)).
    { induction l; intros s; cbn [fold_left]; [lia|]. etransitivity; [|apply IHl].
      unfold neighbours_step. destruct (goes_to_halo v dbl r e a0); cbn [fst]; lia. }
    apply (K _ (c0, fun _ => 0)).
  Qed.

  Lemma ho_ge : vs <= ho v dbl r d.
  Proof.
    unfold ho, halo_offset. fold lat. fold ni. fold vs. generalize (zrange 0 (Z.to_nat d)) as l.
    assert (K : forall l c0, c0 <= fold_left (fun c e => fst (neighbours_dir v dbl r e c)) l c0).
    { induction l; intros c0; cbn [fold_left]; [lia|]. etransitivity; [|apply IHl]. apply neighbours_dir_ge. }
    intros l. apply K.
  Qed.

  Lemma on_index : forall c, holds lat r c -> off lat r d c = false ->
    own c = r /\ holds lat r (nb c) /\ vneighb v r d (vsite_index v ni c) = vsite_index v ni (nb c).
  Proof.
    intros c Hc Ho. assert (Eo : own c = r) by (apply (g_same_rank v Hvv r d Hr Hd c Hc Ho)).
    destruct (own_spec v Hvv r d Hr Hd c Hc) as [_ H1]. fold lat in H1. 
    change (holds lat (own c) (nb c)) in H1. rewrite Eo in H1.
    split; auto. split; auto.
    assert (Hi : In (vsite_index v ni c) (vI v r)) by (apply (vI_In v Hvv); auto; apply (index_range v Hvv); auto).
    assert (Ec : vcrd v r (vsite_index v ni c) = c) by (apply (crd_index v Hvv); auto).
    destruct (vneighb_spec v Hvv r d _ Hr Hd Hi) as [A _].
    unfold offi in A. rewrite Ec in A. specialize (A Ho). rewrite A. unfold vnb. rewrite Ec. auto.
  Qed.

  Lemma halo_filter :
    filter (fun i => vs <=? neighbours v dbl r d i) (zrange 0 (Z.to_nat vs)) = hvs v dbl r d.
  Proof.
    unfold hvs. fold lat. fold ni. fold vs. apply filter_ext_In. intros u Hu. apply zrange_In in Hu.
    destruct vsf as [V0 V1]. assert (Hu' : 0 <= u < vs) by lia.
    destruct (neighbours_spec v Hvv dbl r d Hr Hd) as [_ Hn]. rewrite Hn by auto.
    destruct (halo v dbl r d u) eqn:Hh.
    - assert (H := ho_ge). unfold before, cnt. lia.
    - destruct (vc_spec v Hvv dbl r d Hr u Hu') as (Hc & Ev & El & _). fold lat in Hc.
      assert (Hi := index_vec_lane v Hvv dbl r _ Hr Hc). rewrite Ev, El in Hi.
      destruct (g_axis v Hvv dbl r d Hr Hd _ Hc) as [G _]. destruct (G Hh) as (Ho & _).
      destruct (on_index _ Hc Ho) as (_ & H1 & E).
      assert (E0 : vsite_index v ni (vc v dbl r u) = vector_size v dbl * u).
      { etransitivity; [exact Hi|]. ring. }
      rewrite E0 in E. rewrite E.
      destruct (index_div v Hvv dbl r _ Hr H1) as [E3 _]. 
      assert (E3' : vsite_index v ni (nb (vc v dbl r u)) / vector_size v dbl = vec v dbl r (nb (vc v dbl r u))) by exact E3.
      rewrite E3'. assert (Hr3 := vec_range v Hvv dbl r _ Hr H1). fold lat in Hr3. fold ni vs in Hr3. lia.
  Qed.

  (** Halo vectors of the even sites come first and are half of all. *)
  Definition evn : nat := length (filter (halo v dbl r d) (zrange 0 (Z.to_nat (vs / 2)))).

  Lemma even_vc : forall u, 0 <= u < vs -> even_site (vc v dbl r u) = (u <? vs / 2).
  Proof.
    intros u Hu. destruct (vc_spec v Hvv dbl r d Hr u Hu) as (Hc & Ev & _).
    assert (P := vec_parity v Hvv dbl r _ Hr Hc). rewrite Ev in P. fold lat in P. fold ni vs in P.
    destruct (even_site (vc v dbl r u)), (Z.ltb_spec u (vs / 2)); auto.
    - assert (u < vs / 2) by (apply P; auto). lia.
    - assert (false = true) by (apply P; auto). discriminate.
  Qed.

  Lemma filter_low : forall (P : Z -> bool),
    filter (fun u => P u && (u <? vs / 2)) (zrange 0 (Z.to_nat vs)) = filter P (zrange 0 (Z.to_nat (vs / 2))).
  Proof.
    intros P. destruct vsf as [V0 V1]. replace (Z.to_nat vs) with (Z.to_nat (vs / 2) + Z.to_nat (vs - vs / 2))%nat by lia.
    rewrite zrange_app, filter_app.
    rewrite (filter_none _ _ (zrange (0 + Z.of_nat (Z.to_nat (vs / 2))) _)).
    - rewrite app_nil_r. apply filter_ext_In. intros u Hu. apply zrange_In in Hu.
      assert (E : (u <? vs / 2) = true) by lia. rewrite E. apply andb_true_r.
    - intros u Hu. apply zrange_In in Hu. assert (E : (u <? vs / 2) = false) by lia. rewrite E. apply andb_false_r.
  Qed.

  Lemma hvs_even : Z.of_nat (length (hvs v dbl r d)) = 2 * Z.of_nat evn.
  Proof.
    assert (H := hvs_half v Hvv dbl r d Hr Hd). fold lat in H. fold ni vs in H.
    assert (C := cnt_split _ (halo v dbl r d) (fun u => even_site (vc v dbl r u)) (zrange 0 (Z.to_nat vs))).
    assert (E : filter (fun u => halo v dbl r d u && even_site (vc v dbl r u)) (zrange 0 (Z.to_nat vs)) =
      filter (halo v dbl r d) (zrange 0 (Z.to_nat (vs / 2)))).
    { rewrite <- filter_low. apply filter_ext_In. intros u Hu. apply zrange_In in Hu. rewrite even_vc by lia. auto. }
    unfold cnt in C. rewrite <- H, E in C. unfold hvs. fold lat. fold ni vs. unfold evn. lia.
  Qed.

  Lemma before_parity : forall u, 0 <= u < vs -> halo v dbl r d u = true ->
    0 <= before v dbl r d u < 2 * Z.of_nat evn /\
    (before v dbl r d u < Z.of_nat evn <-> u < vs / 2) /\
    nth (Z.to_nat (before v dbl r d u)) (hvs v dbl r d) 0 = u.
  Proof.
    intros u Hu Hh. destruct vsf as [V0 V1]. rewrite <- hvs_even. unfold before, cnt, hvs. fold lat. fold ni vs.
    rewrite Nat2Z.id. destruct (filter_position (halo v dbl r d) (Z.to_nat vs) u ltac:(lia) Hh) as [F1 F2].
    split; [lia|]. split; auto. unfold evn. split.
    - intros Hlt. destruct (Z_lt_le_dec u (vs / 2)); auto. exfalso.
      replace (Z.to_nat u) with (Z.to_nat (vs / 2) + Z.to_nat (u - vs / 2))%nat in Hlt by lia.
      rewrite zrange_app, filter_app, app_length in Hlt. lia.
    - intros Hlt. destruct (filter_position (halo v dbl r d) (Z.to_nat (vs / 2)) u ltac:(lia) Hh) as [F3 _]. lia.
  Qed.

  (** lv.h 250-259 finds the vector of the on-node neighbours. *)
  Lemma scan_spec : forall c, holds lat r c -> off lat r d c = false -> forall ks,
    (forall k, In k ks -> 0 <= k < W) -> In (lane v dbl r c) ks ->
    scan_lanes v dbl r d (vec v dbl r c) ks = vec v dbl r (nb c).
  Proof.
    intros c Hc Ho. destruct (on_index c Hc Ho) as (Eo & Hn & Ec).
    induction ks as [|k ks IH]; intros Hk Hin; [destruct Hin|]. cbn [scan_lanes]. fold lat. fold ni. fold W.
    assert (Hk0 := Hk k (or_introl eq_refl)). destruct vsf as [V0 V1].
    assert (Hvr := vec_range v Hvv dbl r c Hr Hc). fold lat in Hvr. fold ni vs in Hvr.
    assert (Hi : In (vec v dbl r c * W + k) (vI v r)) by (apply (vI_In v Hvv); auto; fold lat; fold ni; nia).
    assert (Hon := vneighb_on v Hvv r d _ Hr Hd Hi). fold lat in Hon. fold ni in Hon. rewrite Hon.
    destruct (vcrd_spec v Hvv r _ Hr Hi) as [Hx Ex]. fold lat in Hx, Ex. set (x := vcrd v r (vec v dbl r c * W + k)) in *.
    destruct (index_div v Hvv dbl r x Hr Hx) as [X1 X2]. fold lat in X1, X2. rewrite Ex in X1, X2. fold W in X1, X2.
    rewrite Z.add_comm in X1, X2. rewrite Z.div_add in X1 by lia. rewrite Z.mod_add in X2 by lia.
    rewrite Z.div_small in X1 by lia. rewrite Z.mod_small in X2 by lia. cbn [Z.add] in X1.
    destruct (offi v r d (vec v dbl r c * W + k)) eqn:Hof; cbn [negb].
    - apply IH; [intros; apply Hk; simpl; auto|]. destruct Hin as [->|]; auto. exfalso.
      assert (x = c).
      { apply (index_inj v Hvv r); auto. fold lat. rewrite Ex. symmetry. apply (index_vec_lane v Hvv dbl); auto. }
      unfold offi in Hof. fold lat in Hof. fold x in Hof. rewrite H in Hof. congruence.
    - assert (Hofx : off lat r d x = false) by exact Hof.
      destruct (on_index x Hx Hofx) as (Eox & Hnx & Ecx). unfold ni in Ecx. rewrite Ex in Ecx. rewrite Ecx.
      destruct (index_div v Hvv dbl r _ Hr Hnx) as [Y1 _]. etransitivity; [exact Y1|].
      assert (Q : own x = own c -> vec v dbl r x = vec v dbl r c -> vec v dbl (own x) (nb x) = vec v dbl (own x) (nb c))
        by (exact (nb_vec v Hvv dbl r d Hr Hd x c Hx Hc)).
      rewrite Eox, Eo in Q. apply Q; auto.
  Qed.

  (** Without subnodes along the axis the lane is kept. *)
  Lemma nsub_pos : 0 < nsub v dbl a.
  Proof. apply (ext_facts v Hvv dbl r a Hr (a_lt v d Hd)). Qed.

  Lemma single_lane : forall c, nsub v dbl a = 1 -> holds lat r c ->
    lane v dbl (own c) (nb c) = lane v dbl r c.
  Proof.
    intros c HN Hc. destruct (bnd v dbl d r c) eqn:Hb.
    - destruct (own_spec v Hvv r d Hr Hd c Hc) as [HR H1]. apply (lane_subnode v Hvv dbl); auto.
      intros j Hj. assert (E := bnd_subnodes d Hd c j Hc Hb Hj). etransitivity; [exact E|].
      destruct (Nat.eqb_spec j (axis n d)) as [->|]; auto. fold a. rewrite HN, Z.mod_1_r.
      destruct (sub_place v Hvv dbl r c a Hr Hc (a_lt v d Hd)) as (_ & _ & Q). fold a in Q. lia.
    - destruct (nb_lane_in v Hvv dbl r d Hr Hd c Hc Hb) as [E1 E2].
      change (own c = r) in E1. rewrite E1. exact E2.
  Qed.

  Lemma single_off : forall c, nsub v dbl a = 1 -> holds lat r c -> nth a (n_divisions lat) 0 <> 1 ->
    off lat r d c = bnd v dbl d r c.
  Proof.
    intros c HN Hc Hnd. destruct (g_axis v Hvv dbl r d Hr Hd c Hc) as [G1 G2].
    fold lat ls n a t in G1, G2. rewrite HN in G2.
    destruct (bnd v dbl d r c) eqn:Hb; [|apply G1; auto].
    destruct (G2 eq_refl) as (E & _). rewrite E.
    destruct (Z.eqb_spec (nth a (n_divisions lat) 0) 1); [tauto|]. cbn [negb andb].
    destruct (sub_place v Hvv dbl r c a Hr Hc (a_lt v d Hd)) as (_ & _ & Q). fold lat ls n a in Q. rewrite HN in Q.
    apply negb_true_iff. destruct (sgn_cases n d) as [Et|Et]; fold t in Et; rewrite Et; lia.
  Qed.

  Lemma local_no_off : nth a (n_divisions lat) 0 = 1 -> forall c, holds lat r c -> off lat r d c = false.
  Proof.
    intros Hnd c Hc. destruct (g_axis v Hvv dbl r d Hr Hd c Hc) as [G1 G2]. fold lat ls n a t in G1, G2.
    destruct (bnd v dbl d r c) eqn:Hb; [|apply G1; auto]. destruct (G2 eq_refl) as (E & _). rewrite E, Hnd. auto.
  Qed.

  Lemma halo_index_spec : forall c, holds lat r c -> bnd v dbl d r c = true -> off lat r d c = false ->
    is_permutation v dbl d || only_local v dbl d = true /\
    nth (Z.to_nat (before v dbl r d (vec v dbl r c))) (halo_index v dbl r d) 0 = vec v dbl r (nb c) /\
    (if is_permutation v dbl d then boundary_permutation v dbl r d else fun i => i) (lane v dbl r c)
      = lane v dbl r (nb c).
  Proof.
    intros c Hc Hb Ho. assert (Hb' := Hb). rewrite (bnd_halo v Hvv dbl r d Hr Hd c Hc) in Hb'.
    assert (Hvr := vec_range v Hvv dbl r c Hr Hc). fold lat in Hvr. fold ni vs in Hvr.
    destruct (before_parity _ Hvr Hb') as (P1 & _ & P3).
    destruct (on_index c Hc Ho) as (Eo & Hn & Ec).
    unfold halo_index. fold lat. fold ni. fold vs. rewrite halo_filter.
    destruct (neighbours_spec v Hvv dbl r d Hr Hd) as [En _]. rewrite En, hvs_even.
    assert (Epos : (0 <? 2 * Z.of_nat evn) = true) by lia. rewrite Epos. cbn [andb].
    assert (Hmap : forall f : Z -> Z, nth (Z.to_nat (before v dbl r d (vec v dbl r c))) (map f (hvs v dbl r d)) 0 =
      f (vec v dbl r c)).
    { intros f. rewrite nth_indep with (d' := f 0).
      - rewrite map_nth, P3. auto.
      - rewrite map_length. assert (H := hvs_even). lia. }
    assert (Hperm := is_perm_nsub v Hvv dbl r d Hd). fold lat ls n a in Hperm.
    assert (Honly := only_local_spec v Hvv dbl r d Hd). fold lat ls n a in Honly. rewrite Honly.
    destruct (is_permutation v dbl d) eqn:Ep; cbn [orb].
    - rewrite Hmap. split; auto. split.
      + apply scan_spec; auto.
        * fold W. intros k Hk. apply zrange_In in Hk. lia.
        * fold W. apply zrange_In. assert (Hl := lane_range v Hvv dbl r c Hr Hc). fold W in Hl. lia.
      + assert (E := permutation_spec d c Hd Hc Hb). fold (nb c) in E. fold (own c) in E. rewrite Eo in E. exact E.
    - assert (HN : nsub v dbl a = 1) by (assert (H := nsub_pos); lia).
      rewrite HN. cbn [Z.ltb Z.compare Pos.compare Pos.compare_cont negb]. rewrite andb_true_r.
      destruct (Z.eqb_spec (nth a (n_divisions lat) 0) 1) as [Hnd|Hnd].
      + split; auto. rewrite Hmap. split.
        * destruct (vc_spec v Hvv dbl r d Hr _ Hvr) as (Hc0 & Ev & El & _). fold lat in Hc0.
          assert (Hi := index_vec_lane v Hvv dbl r _ Hr Hc0). rewrite Ev, El, Z.add_0_r in Hi.
          set (x := vc v dbl r (vec v dbl r c)) in *.
          destruct (on_index x Hc0 (local_no_off Hnd x Hc0)) as (Eox & Hnx & Ecx).
          change (vsite_index v ni x = vec v dbl r c * vector_size v dbl) in Hi. rewrite Hi in Ecx. rewrite Ecx.
          destruct (index_div v Hvv dbl r _ Hr Hnx) as [Y1 _]. etransitivity; [exact Y1|].
          assert (Q : own x = own c -> vec v dbl r x = vec v dbl r c -> vec v dbl (own x) (nb x) = vec v dbl (own x) (nb c))
        by (exact (nb_vec v Hvv dbl r d Hr Hd x c Hc0 Hc)).
          rewrite Eox, Eo in Q. apply Q; auto.
        * assert (E := single_lane c HN Hc). rewrite Eo in E. auto.
      + rewrite (single_off c HN Hc Hnd) in Ho. congruence.
  Qed.

  (** ** Memory after the local copy *)
  Section Memory.
    Variable T : Type.

    Lemma copy_vector_low : forall w tt s perm (f : T -> T) mem j, 0 < w -> j < tt * w ->
      copy_vector T w tt s perm f mem j = mem j.
    Proof.
      intros w tt s perm f mem j Hw Hj. unfold copy_vector.
      assert (K : forall l m, (forall i, In i l -> 0 <= i) ->
        fold_left (fun m i => zupd m (tt * w + i) (f (m (s * w + perm i)))) l m j = m j).
      { induction l as [|i l IH]; intros m Hl; cbn [fold_left]; auto.
        rewrite IH by (intros; apply Hl; simpl; auto).
        apply zupd_other. specialize (Hl i (or_introl eq_refl)). lia. }
      apply K. intros i Hi. apply zrange_In in Hi. lia.
    Qed.

    Lemma copy_vector_high : forall w tt s perm (f : T -> T) mem j, 0 < w -> (tt + 1) * w <= j ->
      copy_vector T w tt s perm f mem j = mem j.
    Proof.
      intros w tt s perm f mem j Hw Hj. unfold copy_vector.
      assert (K : forall l m, (forall i, In i l -> i < w) ->
        fold_left (fun m i => zupd m (tt * w + i) (f (m (s * w + perm i)))) l m j = m j).
      { induction l as [|i l IH]; intros m Hl; cbn [fold_left]; auto.
        rewrite IH by (intros; apply Hl; simpl; auto).
        apply zupd_other. specialize (Hl i (or_introl eq_refl)). lia. }
      apply K. intros i Hi. apply zrange_In in Hi. lia.
    Qed.

    Lemma copy_vector_in : forall w tt s perm (f : T -> T) mem l, 0 < w -> 0 <= l < w ->
      s * w + perm l < tt * w -> copy_vector T w tt s perm f mem (tt * w + l) = f (mem (s * w + perm l)).
    Proof.
      intros w tt s perm f mem l Hw Hl Hs. unfold copy_vector.
      assert (K : forall ks m, NoDup ks -> (forall i, In i ks -> 0 <= i) ->
        fold_left (fun m i => zupd m (tt * w + i) (f (m (s * w + perm i)))) ks m (tt * w + l) =
        if in_dec Z.eq_dec l ks then f (m (s * w + perm l)) else m (tt * w + l)).
      { induction ks as [|i ks IH]; intros m Hn Hks; cbn [fold_left]; [auto|].
        inversion Hn; subst. rewrite IH by (auto; intros; apply Hks; simpl; auto).
        assert (Hi := Hks i (or_introl eq_refl)).
        destruct (in_dec Z.eq_dec l ks) as [Hin|Hin], (in_dec Z.eq_dec l (i :: ks)) as [Hin'|Hin'].
        - rewrite zupd_other by lia. auto.
        - exfalso. apply Hin'. simpl. auto.
        - destruct Hin' as [->|]; [|tauto]. apply zupd_same.
        - rewrite zupd_other; auto. intros E. apply Hin'. left. lia. }
      rewrite K.
      - destruct (in_dec Z.eq_dec l (zrange 0 (Z.to_nat w))) as [|Hn]; auto. exfalso. apply Hn. apply zrange_In. lia.
      - apply zrange_NoDup.
      - intros i Hi. apply zrange_In in Hi. lia.
    Qed.

    Lemma copy_all : forall w (o : Z) (src : Z -> Z) perm (f : T -> T) k start mem, 0 < w -> 0 <= start ->
      let res := fold_left (fun m idx => copy_vector T w (idx + o) (src idx) perm f m) (zrange start k) mem in
      (forall j, j < o * w -> res j = mem j) /\
      (forall idx l, start <= idx < start + Z.of_nat k -> 0 <= l < w -> src idx * w + perm l < o * w ->
         res ((o + idx) * w + l) = f (mem (src idx * w + perm l))).
    Proof.
      intros w o src perm f k. induction k; intros start mem Hw Hs; cbn [zrange fold_left].
      - split; auto. intros. lia.
      - set (mem1 := copy_vector T w (start + o) (src start) perm f mem).
        destruct (IHk (start + 1) mem1 Hw ltac:(lia)) as [A B].
        set (res := fold_left (fun m idx => copy_vector T w (idx + o) (src idx) perm f m) (zrange (start + 1) k) mem1) in *.
        assert (A1 : forall j, j < o * w -> mem1 j = mem j) by (intros; apply copy_vector_low; nia).
        split; [intros; rewrite A by auto; auto|].
        intros idx l Hidx Hl Hsrc. destruct (Z.eq_dec idx start) as [->|Hne].
        + assert (Hkeep : forall k' s' m', start < s' ->
            fold_left (fun m idx => copy_vector T w (idx + o) (src idx) perm f m) (zrange s' k') m' ((o + start) * w + l)
            = m' ((o + start) * w + l)).
          { induction k'; intros s' m' Hs'; cbn [zrange fold_left]; auto. rewrite IHk' by lia.
            apply copy_vector_low; auto. nia. }
          unfold res. rewrite Hkeep by lia. unfold mem1. rewrite (Z.add_comm o start).
          apply copy_vector_in; auto. nia.
        + rewrite B by (auto; lia). rewrite A1 by auto. auto.
    Qed.

    Variables (p : parity) (f : T -> T) (mem : Z -> T).
    Let lmem := set_local_boundary T v dbl r d p f mem.

    Lemma local_low : forall j, j < vs * W -> lmem j = mem j.
    Proof.
      intros j Hj. unfold lmem, set_local_boundary. fold W. destruct (is_permutation v dbl d || only_local v dbl d); auto.
      assert (H := ho_ge). unfold ho in H.
      apply copy_all; auto; [|nia].
      destruct (neighbours_spec v Hvv dbl r d Hr Hd) as [En _]. rewrite En, hvs_even.
      destruct p; lia.
    Qed.

    Lemma local_halo : forall c, holds lat r c -> has_parity p c -> bnd v dbl d r c = true -> off lat r d c = false ->
      lmem ((ho v dbl r d + before v dbl r d (vec v dbl r c)) * W + lane v dbl r c) = f (mem (vsite_index v ni (nb c))).
    Proof.
      intros c Hc Hp Hb Ho. destruct (halo_index_spec c Hc Hb Ho) as (E1 & E2 & E3).
      unfold lmem, set_local_boundary. fold W. rewrite E1.
      destruct (neighbours_spec v Hvv dbl r d Hr Hd) as [En _]. rewrite En, hvs_even.
      assert (Hvr := vec_range v Hvv dbl r c Hr Hc). fold lat in Hvr. fold ni vs in Hvr.
      assert (Hb' := Hb). rewrite (bnd_halo v Hvv dbl r d Hr Hd c Hc) in Hb'.
      destruct (before_parity _ Hvr Hb') as (P1 & P2 & _).
      assert (Hpar := vec_parity v Hvv dbl r c Hr Hc). fold lat in Hpar. fold ni vs in Hpar.
      destruct (on_index c Hc Ho) as (_ & Hn & _).
      assert (Hi := index_vec_lane v Hvv dbl r _ Hr Hn). fold lat in Hi. fold ni W in Hi.
      assert (Hvn := vec_range v Hvv dbl r _ Hr Hn). fold lat in Hvn. fold ni vs in Hvn.
      assert (Hln := lane_range v Hvv dbl r _ Hr Hn). fold W in Hln.
      assert (Hlc := lane_range v Hvv dbl r _ Hr Hc). fold W in Hlc.
      assert (Hho := ho_ge). assert (Hes : even_site c = true <-> site_even c).
      { rewrite even_site_spec. unfold site_even. rewrite Zmod_even. destruct (Z.even (zsum c)); intuition lia. }
      set (k := before v dbl r d (vec v dbl r c)) in *.
      assert (Hhalf : 2 * Z.of_nat evn / 2 = Z.of_nat evn) by (rewrite Z.mul_comm; apply Z.div_mul; lia).
      unfold ho. unfold ho in Hho. rewrite Hi, <- E2, <- E3.
      apply copy_all with (src := fun idx => nth (Z.to_nat idx) (halo_index v dbl r d) 0); auto.
      - destruct p; lia.
      - rewrite Hhalf. destruct p; cbn [has_parity] in Hp; [| |lia].
        + assert (vec v dbl r c < vs / 2) by (apply Hpar, Hes; auto). lia.
        + assert (~ vec v dbl r c < vs / 2) by (rewrite <- Hpar, Hes; auto). lia.
      - rewrite E2, E3. nia.
    Qed.
  End Memory.
End Update.
