(** Repeated halo updates do not disturb one another. *)
From Verif Require Import Common LayoutModel LayoutSpec LayoutProofs1 LayoutProofs2 LayoutProofs4
  LayoutProofs5 LayoutProofs6 LayoutProofs7 VlayoutModel VlayoutSpec VlayoutProofs1 VlayoutProofs2
  VlayoutProofs3 VlayoutProofs4 VlayoutProofs5 VlayoutProofs6 VlayoutProofs7 VlayoutProofs8.

Lemma copies_frame : forall (v : vlattice) (T : Type) w (o : Z) (src : Z -> Z) perm (f : T -> T) k start mem j, 0 < w ->
  (j < (o + start) * w \/ (o + start + Z.of_nat k) * w <= j) ->
  fold_left (fun m idx => copy_vector T w (idx + o) (src idx) perm f m) (zrange start k) mem j = mem j.
Proof.
  intros v T w o src perm f k. induction k; intros start mem j Hw Hj; cbn [zrange fold_left]; auto.
  rewrite Nat2Z.inj_succ in Hj.
  rewrite IHk; [|auto|]; [|destruct Hj as [Hj|Hj]; [left; nia|right]].
  2: replace (o + (start + 1) + Z.of_nat k) with (o + start + Z.succ (Z.of_nat k)) by lia; auto.
  destruct Hj as [Hj|Hj].
  - apply (copy_vector_low v false 0 0); [auto|rewrite (Z.add_comm start o); auto].
  - apply (copy_vector_high v false 0 0); auto. etransitivity; [|exact Hj]. apply Z.mul_le_mono_nonneg_r; lia.
Qed.

Section Frame.
  Variable v : vlattice.
  Hypothesis Hvv : valid_vlattice v.
  Variable dbl : bool.
  Let lat := vl_lat v.
  Let Hv : valid_lattice lat := vv_valid v Hvv.
  Let ls := l_size lat.
  Let W := vector_size v dbl.
  Let HW : 0 < W := Wpos v Hvv dbl.
  Variable r : Z.
  Hypothesis Hr : is_rank lat r.
  Let ni := nodeinfo lat r.
  Let vs := v_sites v dbl ni.

  Definition plo (d : Z) (p : parity) : Z := match p with ODD => Z.of_nat (evn v dbl r d) | _ => 0 end.
  Definition phi (d : Z) (p : parity) : Z :=
    match p with EVEN => Z.of_nat (evn v dbl r d) | _ => 2 * Z.of_nat (evn v dbl r d) end.

  (** Position [j] is one that gathering parity [p] of direction [d] may write. *)
  Definition region (d : Z) (p : parity) (j : Z) : Prop :=
    (ho v dbl r d + plo d p) * W <= j < (ho v dbl r d + phi d p) * W.

  Lemma before_half : forall d c p, is_direction ls d -> holds lat r c -> bnd v dbl d r c = true ->
    (has_parity p c <-> plo d p <= before v dbl r d (vec v dbl r c) < phi d p).
  Proof.
    intros d c p Hd Hc Hb.
    assert (Hvr := vec_range v Hvv dbl r c Hr Hc).
    rewrite (bnd_halo v Hvv dbl r d Hr Hd c Hc) in Hb.
    destruct (before_parity v Hvv dbl r Hr d Hd _ Hvr Hb) as (P1 & P2 & _).
    assert (Hpar := vec_parity v Hvv dbl r c Hr Hc). rewrite <- Hpar in P2.
    rewrite has_parity_even. unfold plo, phi.
    destruct p, (even_site c); intuition (try discriminate; try lia).
  Qed.

  Lemma ho_next : forall d e, is_direction ls d -> d < e ->
    ho v dbl r d + 2 * Z.of_nat (evn v dbl r d) <= ho v dbl r e.
  Proof.
    intros d e Hd Hde. assert (H0 : 0 <= d) by (destruct Hd; auto).
    rewrite <- (hvs_even v Hvv dbl r Hr d Hd).
    destruct (neighbours_spec v Hvv dbl r d Hr Hd) as [En _]. rewrite <- En.
    unfold n_halo_vectors, ho.
    assert (Ez : zrange 0 (Z.to_nat e) = zrange 0 (Z.to_nat d) ++ d :: zrange (d + 1) (Z.to_nat (e - d - 1))).
    { replace (Z.to_nat e) with (Z.to_nat d + S (Z.to_nat (e - d - 1)))%nat by lia.
      rewrite zrange_app. cbn [zrange]. rewrite Z2Nat.id by lia. rewrite Z.add_0_l. auto. }
    assert (Eh : halo_offset v dbl r e = fold_left (fun c e => fst (neighbours_dir v dbl r e c))
      (zrange (d + 1) (Z.to_nat (e - d - 1))) (fst (neighbours_dir v dbl r d (halo_offset v dbl r d)))).
    { unfold halo_offset at 1. rewrite Ez, fold_left_app. reflexivity. }
    assert (K : forall l c0, c0 <= fold_left (fun c e => fst (neighbours_dir v dbl r e c)) l c0).
    { induction l; intros c0; cbn [fold_left]; [lia|]. etransitivity; [|apply IHl]. apply (neighbours_dir_ge v dbl r 0). }
    assert (K1 := K (zrange (d + 1) (Z.to_nat (e - d - 1))) (fst (neighbours_dir v dbl r d (halo_offset v dbl r d)))).
    lia.
  Qed.

  (** The position read for a boundary site of direction [e] lies in a region of
      direction [d] only if the directions agree and the parity fits. *)
  Lemma region_read : forall d p e c, is_direction ls d -> is_direction ls e -> holds lat r c ->
    region d p (read_position v dbl r e (vsite_index v ni c)) ->
    e = d /\ bnd v dbl d r c = true /\ has_parity p c.
  Proof.
    intros d p e c Hd He Hc Hreg. unfold region in Hreg.
    assert (Hho := ho_ge v dbl r d). fold lat in Hho. fold ni vs in Hho.
    destruct (vs_facts v Hvv dbl r Hr) as [V0 V1]. fold lat in V0, V1. fold ni in V0, V1. fold vs W in V0, V1.
    assert (P0 : 0 <= plo d p /\ phi d p <= 2 * Z.of_nat (evn v dbl r d)) by (unfold plo, phi; destruct p; lia).
    assert (Hlc := lane_range v Hvv dbl r _ Hr Hc). fold W in Hlc.
    destruct (bnd v dbl e r c) eqn:Hb.
    - assert (Hp := pos_bnd v Hvv dbl r e Hr He c Hc Hb).
      fold lat in Hp. fold ni in Hp. cbv beta in Hp. destruct Hp as [Hp _]. fold W in Hp. rewrite Hp in Hreg.
      assert (Hba := Hb). rewrite (bnd_halo v Hvv dbl r e Hr He c Hc) in Hba.
      assert (Hvr := vec_range v Hvv dbl r c Hr Hc).
      destruct (before_parity v Hvv dbl r Hr e He _ Hvr Hba) as (P1 & _ & _).
      assert (Hk : ho v dbl r d + plo d p <= ho v dbl r e + before v dbl r e (vec v dbl r c) < ho v dbl r d + phi d p) by nia.
      assert (Hed : e = d).
      { destruct (Z.lt_trichotomy e d) as [Hl|[He'|Hl]]; auto.
        - assert (N := ho_next e d He Hl). lia.
        - assert (N := ho_next d e Hd Hl). lia. }
      subst e. split; auto. split; auto. apply (before_half d c p Hd Hc Hb). lia.
    - exfalso. assert (Hp := pos_index v Hvv dbl r e Hr c Hc). cbv beta in Hp. fold lat in Hp. fold ni in Hp.
      rewrite Hp in Hreg. fold W in Hreg.
      assert (Hi := inner_neighbour v Hvv dbl r e Hr He c Hc Hb). cbv beta in Hi. fold lat in Hi. fold ni W in Hi.
      rewrite Hi in Hreg.
      destruct (nb_lane_in v Hvv dbl r e Hr He c Hc Hb) as [E _].
      assert (Hn : holds lat r (neighbour lat c e)).
      { destruct (own_spec v Hvv r e Hr He c Hc) as [_ H1]. cbv beta in E, H1. fold lat in E, H1. rewrite E in H1. auto. }
      assert (Hx := index_range v Hvv r _ Hr Hn). fold lat in Hx. fold ni in Hx. nia.
  Qed.

  Variable d : Z.
  Hypothesis Hd : is_direction ls d.

  Lemma local_frame : forall (T : Type) p (f : T -> T) mem j, ~ region d p j ->
    set_local_boundary T v dbl r d p f mem j = mem j.
  Proof.
    intros T p f mem j Hj. unfold set_local_boundary. fold W. destruct (is_permutation v dbl d || only_local v dbl d); auto.
    destruct (neighbours_spec v Hvv dbl r d Hr Hd) as [En _]. rewrite En, (hvs_even v Hvv dbl r Hr d Hd).
    assert (Hh : 2 * Z.of_nat (evn v dbl r d) / 2 = Z.of_nat (evn v dbl r d)) by (rewrite Z.mul_comm; apply Z.div_mul; lia).
    rewrite Hh. fold (ho v dbl r d).
    apply (copies_frame v) with (src := fun idx => nth (Z.to_nat idx) (halo_index v dbl r d) 0); auto.
    assert (K : j < (ho v dbl r d + plo d p) * W \/ (ho v dbl r d + phi d p) * W <= j) by (unfold region in Hj; lia).
    unfold plo, phi in K. destruct p; (destruct K as [K|K]; [left; exact K|right]);
      (etransitivity; [|exact K]; apply Z.eq_le_incl; f_equal; lia).
  Qed.

  Lemma flist_parity : forall i p, In i (flist v r d p) -> In i (vI v r) /\ offi v r d i = true /\ has_parity p (vcrd v r i).
  Proof.
    intros i p Hi. destruct (flist_off v dbl r d i p Hi) as [H1 H2]. split; auto. split; auto.
    apply has_parity_even. destruct p; auto; cbn [flist] in Hi; apply filter_In in Hi; destruct Hi as [_ Hi];
      apply andb_true_iff in Hi; destruct Hi as [_ Hi]; auto. apply negb_true_iff in Hi. auto.
  Qed.

  Lemma pos_region : forall i p, In i (flist v r d p) -> region d p (read_position v dbl r d i).
  Proof.
    intros i p Hi. destruct (flist_parity i p Hi) as (H1 & H2 & H3).
    destruct (vcrd_spec v Hvv r i Hr H1) as [Hh Ei].
    assert (Hb := off_bnd v Hvv dbl r d Hr Hd (vcrd v r i) Hh H2).
    assert (Hp := pos_bnd v Hvv dbl r d Hr Hd _ Hh Hb). cbv beta in Hp. rewrite Ei in Hp. destruct Hp as [Hp _].
    fold W in Hp. rewrite Hp. unfold region.
    apply (before_half d _ p Hd Hh Hb) in H3. assert (Hlc := lane_range v Hvv dbl r _ Hr Hh). fold W in Hlc. nia.
  Qed.

  Lemma recv_frame : forall (T : Type) p buf (mem : Z -> T) c0 j, holds lat r c0 -> off lat r d c0 = true ->
    is_permutation v dbl d = true -> ~ region d p j -> place_recv T v dbl r d p buf mem j = mem j.
  Proof.
    intros T p buf mem c0 j Hc0 Ho0 Hperm Hj. unfold place_recv.
    assert (Erl : recv_list v dbl r d = map (fun i => read_position v dbl r d i) (flist v r d ALL))
      by exact (recv_list_eq v Hvv dbl r d Hr Hd c0 Hc0 Ho0 Hperm).
    assert (Hh := flist_half v Hvv r d Hr Hd).
    assert (Hall : length (flist v r d ALL) = (2 * length (flist v r d EVEN))%nat).
    { cbn [flist] in *. rewrite app_length. lia. }
    set (e := Z.of_nat (length (flist v r d EVEN))) in *.
    assert (Hlen : Z.of_nat (length (recv_list v dbl r d)) = 2 * e) by (rewrite Erl, map_length; lia).
    rewrite Hlen. assert (H2 : 2 * e / 2 = e) by (rewrite Z.mul_comm; apply Z.div_mul; lia). rewrite H2.
    set (start := match p with ODD => e | _ => 0 end).
    apply (fold_zupd_other Z T (fun i => nth (Z.to_nat (i + start)) (recv_list v dbl r d) 0)).
    intros Hin. apply in_map_iff in Hin. destruct Hin as (i & E & Hi). apply zrange_In in Hi. apply Hj. rewrite <- E.
    assert (Hlt : (Z.to_nat (i + start) < length (flist v r d ALL))%nat) by (unfold start in *; destruct p; lia).
    rewrite Erl, nth_indep with (d' := read_position v dbl r d 0) by (rewrite map_length; auto).
    rewrite (map_nth (fun i => read_position v dbl r d i)).
    apply pos_region. unfold start in *. destruct p; cbn [flist] in *.
    - rewrite app_nth1 by lia. apply nth_In. lia.
    - rewrite app_nth2 by lia. apply nth_In. lia.
    - apply nth_In. auto.
  Qed.

  Lemma direct_frame : forall (T : Type) p buf (mem : Z -> T) c0 j, holds lat r c0 -> off lat r d c0 = true ->
    is_permutation v dbl d = false -> ~ region d p j -> place_direct T v dbl r d p buf mem j = mem j.
  Proof.
    intros T p buf mem c0 j Hc0 Ho0 Hnp Hj. unfold place_direct.
    assert (Efe := from_even v Hvv dbl r d Hr Hd c0 Hc0 Ho0 Hnp). rewrite Efe. fold (ho v dbl r d). fold W in Efe |- *.
    rewrite (vfrom_sites v r d p Hr Hd), Nat2Z.id.
    assert (Hh := flist_half v Hvv r d Hr Hd).
    assert (Ee := vfrom_sites v r d EVEN Hr Hd). cbn [n_sites] in Ee.
    assert (Hall : length (flist v r d ALL) = (2 * length (flist v r d EVEN))%nat).
    { cbn [flist] in *. rewrite app_length. lia. }
    set (o := match p with ODD => _ | _ => 0 end).
    apply (fold_zupd_other Z T (fun i => ho v dbl r d * W + o + i)). intros Hin. apply in_map_iff in Hin.
    destruct Hin as (i & E & Hi). apply zrange_In in Hi. apply Hj. unfold region, plo, phi, o in *.
    destruct p; nia.
  Qed.

  Lemma gather_frame : forall (T : Type) (st : Z -> Z -> T) p j, ~ region d p j ->
    vgather T v dbl d p (fun _ x => x) (fun _ x => x) st r j = st r j.
  Proof.
    intros T st p j Hj. unfold vgather.
    destruct (exists_off v Hvv r d Hr) as [(c0 & Hc0 & Ho0)|Hnone].
    - destruct (cn_rank (vfrom_node v r d) =? r); [apply local_frame; auto|].
      destruct (is_permutation v dbl d) eqn:Hperm.
      + rewrite (recv_frame T p _ _ c0 j Hc0 Ho0 Hperm Hj). apply local_frame; auto.
      + rewrite (direct_frame T p _ _ c0 j Hc0 Ho0 Hperm Hj). apply local_frame; auto.
    - assert (Eb : (cn_rank (vfrom_node v r d) =? r) = true).
      { apply Z.eqb_eq. apply (vfrom_self v Hvv r d Hr Hd Hnone). }
      rewrite Eb. apply local_frame; auto.
  Qed.
End Frame.

Section History.
  Variable v : vlattice.
  Hypothesis Hvv : valid_vlattice v.
  Variable dbl : bool.
  Variable T : Type.
  Variable F : list Z -> T.
  Let lat := vl_lat v.

  Lemma gather_represents : forall st d p, is_direction (l_size lat) d -> vrepresents v st F ->
    vrepresents v (vgather T v dbl d p (fun _ x => x) (fun _ x => x) st) F.
  Proof.
    intros st d p Hd Hst r c Hr Hc. rewrite <- (Hst r c Hr Hc).
    destruct (vgather_spec v Hvv dbl r d Hr Hd T st F p Hst) as [A _]. apply A. apply (index_range v Hvv); auto.
  Qed.

  Definition good (st : Z -> Z -> T) (d : Z) (p : parity) : Prop :=
    forall r c, is_rank lat r -> holds lat r c -> has_parity p c ->
      st r (read_position v dbl r d (vsite_index v (nodeinfo lat r) c)) = F (neighbour lat c d).

  Lemma good_step : forall st d p e q, is_direction (l_size lat) d -> is_direction (l_size lat) e ->
    vrepresents v st F -> good st e q ->
    good (vgather T v dbl d p (fun _ x => x) (fun _ x => x) st) e q.
  Proof.
    intros st d p e q Hd He Hst Hg r c Hr Hc Hq.
    set (j := read_position v dbl r e (vsite_index v (nodeinfo lat r) c)).
    assert (Hdec : region v dbl r d p j \/ ~ region v dbl r d p j) by (unfold region; lia).
    destruct Hdec as [Hin|Hout].
    - destruct (region_read v Hvv dbl r Hr d p e c Hd He Hc Hin) as (-> & _ & Hp).
      apply (vgather_spec v Hvv dbl r d Hr Hd T st F p Hst); auto.
    - rewrite (gather_frame v Hvv dbl r Hr d Hd T st p j Hout). apply Hg; auto.
  Qed.

  Lemma run_good : forall reqs st d p,
    Forall (fun q => is_direction (l_size lat) (fst q)) reqs -> vrepresents v st F ->
    vrepresents v (run_gathers T v dbl st reqs) F /\
    ((In (d, p) reqs \/ (is_direction (l_size lat) d /\ good st d p)) -> good (run_gathers T v dbl st reqs) d p).
  Proof.
    induction reqs as [|[d0 p0] reqs IH]; intros st d p HF Hst; cbn [run_gathers fold_left fst snd].
    - split; auto. intros [[]|[_ H]]; auto.
    - inversion HF as [|? ? Hd0 HF']; subst. cbn [fst] in Hd0.
      assert (Hst1 := gather_represents st d0 p0 Hd0 Hst).
      destruct (IH _ d p HF' Hst1) as [A B]. split; [exact A|].
      intros H. apply B. destruct H as [[E|H]|[Hd H]]; auto.
      + inversion E; subst. right. split; auto. intros r c Hr Hc Hp.
        apply (vgather_spec v Hvv dbl r d Hr Hd0 T st F p Hst); auto.
      + right. split; auto. apply good_step; auto.
  Qed.
End History.
