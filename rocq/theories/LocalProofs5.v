(** The whole array with the halo, and the collection of boxes of sites. *)
From Verif Require Import Common LayoutModel LayoutSpec LayoutProofs1 LayoutProofs2 LayoutProofs4 LayoutProofs5 LayoutProofs8
  ElementModel ElementSpec ElementProofs1 ElementProofs2
  LocalModel LocalSpec LocalProofs1 LocalProofs2 LocalProofs3 LocalProofs4.

Section Halo.
  Context {V : Type}.
  Variables (lat : lattice) (st : rank_store V) (F : list Z -> V).
  Hypothesis Hv : valid_lattice lat.
  Hypothesis HF : represents lat st F.
  Notation n := (length (l_size lat)).
  Notation ex r j := (nth j (extent lat r) 0).
  Notation pos r := (offset (outer_lower lat r) (outer_extent lat r)).
  Notation wraps := (wraps_to (l_size lat)).

  Lemma not_later : forall r D d m c, (n - m = S d)%nat -> (d < n)%nat -> (forall j, In j D -> (j < d)%nat) ->
    (corner_of lat r (D ++ [d]) c -> ~ reached lat r (D ++ [d]) m c) /\
    (corner_of lat r (D ++ [d]) c -> ~ reached lat r D m c) /\
    (reached lat r (D ++ [d]) m c -> ~ reached lat r D m c).
  Proof.
    intros r D d m c Ed Hd HD. unfold corner_of, reached. rewrite Ed.
    assert (I : In d (D ++ [d])) by (apply in_app_iff; right; left; auto).
    assert (N : ~ In d D) by (intros H; apply HD in H; lia).
    split; [|split].
    - intros H [H1 (j & Hj & Ho)]. apply H in Ho; [|lia].
      apply in_app_iff in Ho. destruct Ho as [Ho|[Ho|[]]]; [apply HD in Ho|]; lia.
    - intros H [H1 _]. apply N, H1; [lia|]. apply H; auto.
    - intros [H _] [H1 _]. apply N, H1; [lia|]. apply H; auto.
  Qed.

  Lemma loop_ok : forall m D s, (m <= n)%nat -> NoDup D -> (forall j, In j D -> (j < n - m)%nat) ->
    corner_values lat F D (level_source st (fst s) (length D)) ->
    let s' := halo_loop lat st n m D s in
    (forall k, (k < length D)%nat -> fst s' k = fst s k) /\
    (forall r c z, is_rank lat r -> (forall j, (j < n)%nat -> 1 <= ex r j) ->
       extended lat r c -> ~ above_single_layer lat r c -> reached lat r D m c -> wraps c z ->
       snd s' r (pos r c) = F z) /\
    (forall r c, is_rank lat r -> extended lat r c ->
       ~ (reached lat r D m c /\ ~ above_single_layer lat r c) ->
       snd s' r (pos r c) = snd s r (pos r c)).
  Proof.
    induction m as [|m IH]; intros D s Hm HD HDn Hsrc; cbv zeta.
    - cbn [halo_loop]. split; [auto|]. split; [|auto].
      intros r c z _ _ _ _ [_ (j & Hj & _)] _. lia.
    - assert (Hd : (n - S m < n)%nat) by lia. assert (Ed : (n - m)%nat = S (n - S m)) by lia.
      assert (HD1 : NoDup (D ++ [n - S m]%nat)).
      { apply NoDup_app_intro; auto; [repeat constructor; auto|].
        intros x Hx [<-|[]]. apply HDn in Hx. lia. }
      assert (HD1n : forall j, In j (D ++ [n - S m]%nat) -> (j < n - m)%nat).
      { intros j. rewrite in_app_iff. intros [H|[<-|[]]]; [apply HDn in H|]; lia. }
      assert (HD1l : forall j, In j (D ++ [n - S m]%nat) -> (j < n)%nat) by (intros j H; apply HD1n in H; lia).
      assert (Hsplit := fun r c => reached_split lat r D m c Hm HDn).
      assert (Hlater := fun r c => not_later r D (n - S m) m c Ed Hd HDn).
      cbn [halo_loop]. set (d := (n - S m)%nat) in *. destruct s as [corners data]. cbn [fst snd] in *.
      assert (C1 := call_dest lat F Hv D d (level_source st corners (length D)) (corners (length D)) data Hsrc HD1 HD1l).
      assert (C2 := call_written lat F Hv D d (level_source st corners (length D)) (corners (length D)) data Hsrc HD1 HD1l).
      assert (C3 := call_kept lat Hv D d (level_source st corners (length D)) (corners (length D)) data HD1 HD1l).
      destruct (collect lat D d (level_source st corners (length D)) (corners (length D)) data) as [dest data1].
      cbn [fst snd] in C1, C2, C3.
      assert (Hsrc2 : corner_values lat F (D ++ [d])
                (level_source st (fst (set_level corners (length D) dest, data1)) (length (D ++ [d])))).
      { rewrite app_length, Nat.add_comm. cbn [length Nat.add fst level_source]. unfold set_level.
        rewrite Nat.eqb_refl. exact C1. }
      destruct (IH (D ++ [d]) (set_level corners (length D) dest, data1) ltac:(lia) HD1 HD1n Hsrc2)
        as (A1 & A2 & A3).
      set (s2 := halo_loop lat st n m (D ++ [d]) (set_level corners (length D) dest, data1)) in *.
      rewrite app_length in A1. cbn [length fst snd] in A1, A2, A3.
      assert (A1' : forall k, (k < length D)%nat -> fst s2 k = corners k).
      { intros k Hk. rewrite A1 by lia. unfold set_level. destruct (Nat.eqb_spec k (length D)); [lia|auto]. }
      assert (Hsrc3 : corner_values lat F D (level_source st (fst s2) (length D))).
      { destruct (length D) as [|k]; [exact Hsrc|]. cbn [level_source] in *. rewrite A1' by lia. exact Hsrc. }
      destruct (IH D s2 ltac:(lia) HD ltac:(intros j H; apply HDn in H; lia) Hsrc3) as (B1 & B2 & B3).
      split; [|split].
      + intros k Hk. rewrite B1 by auto. auto.
      + intros r c z Hr Hex He Hg Hre Hz. apply Hsplit in Hre. destruct (Hlater r c) as (L1 & L2 & L3).
        destruct Hre as [H|[H|H]].
        * rewrite B3 by tauto. rewrite A3 by tauto. auto.
        * rewrite B3 by tauto. auto.
        * auto.
      + intros r c Hr He Hno. rewrite Hsplit in Hno. rewrite B3 by tauto. rewrite A3 by tauto.
        apply C3; tauto.
  Qed.

  (** ** The bulk *)

  Lemma bulk_at : forall old r c z, is_rank lat r -> extended lat r c -> corner_of lat r [] c -> wraps c z ->
    copy_bulk lat st old r (pos r c) = F z.
  Proof.
    intros old r c z Hr He Hc Hz. destruct (box_lengths lat r Hv) as [LA LB].
    apply extended_spec in He; auto. destruct He as [Lc He].
    assert (Hx : holds lat r c).
    { split; [lia|]. split; [lia|]. intros j Hj. rewrite Lc in Hj.
      destruct (outside_dec lat r c j) as [H|H]; [apply Hc in H; [elim H|auto]|].
      unfold outside, lower, extent in H. lia. }
    destruct (held_index lat r Hv Hr c Hx) as [Hi Ei]. unfold copy_bulk.
    change (fold_left _ _ _) with
      (writes (fun i => Some (halo_index (nodeinfo lat r) (coordinates (nodeinfo lat r) i), st r i))
              (loop_indices (nodeinfo lat r) ALL) (old r)).
    assert (E : forall i, 0 <= i < volume (nodeinfo lat r) ->
              halo_index (nodeinfo lat r) (coordinates (nodeinfo lat r) i) =
              pos r (coordinates (nodeinfo lat r) i)).
    { intros i Hi'. apply halo_pos; auto. eapply held_length; eauto. apply (index_held lat r Hv Hr i Hi'). }
    assert (EF : st r (site_index (nodeinfo lat r) c) = F z).
    { apply (corner_nil lat st F Hv HF r c c z); auto. apply out_nil. auto. }
    apply writes_at.
    - exists (site_index (nodeinfo lat r) c). split; [apply loop_sites; auto|].
      rewrite E, Ei, EF by auto. auto.
    - intros i v' Hi' Ew. apply loop_sites in Hi'; auto. injection Ew as E1 <-. rewrite E in E1 by auto.
      destruct (index_held lat r Hv Hr i Hi') as [Hx' Ex'].
      assert (Hin : forall x, holds lat r x -> extended lat r x).
      { intros x Hh. apply (out_extended lat Hv r [] x); auto. apply out_nil. eapply held_length; eauto. }
      apply offset_inj in E1; [|apply Hin; auto|apply Hin; auto]. rewrite <- Ex', E1. auto.
  Qed.

  Lemma bulk_kept : forall old r c, is_rank lat r -> extended lat r c -> ~ corner_of lat r [] c ->
    copy_bulk lat st old r (pos r c) = old r (pos r c).
  Proof.
    intros old r c Hr He Hc. unfold copy_bulk.
    change (fold_left _ _ _) with
      (writes (fun i => Some (halo_index (nodeinfo lat r) (coordinates (nodeinfo lat r) i), st r i))
              (loop_indices (nodeinfo lat r) ALL) (old r)).
    apply writes_other. intros i v Hi E. apply loop_sites in Hi; auto.
    destruct (index_held lat r Hv Hr i Hi) as [Hx' Ex']. injection E as E _.
    assert (Lx := held_length lat r Hv _ Hx'). rewrite halo_pos in E by auto.
    assert (Ho := out_nil lat r _ Lx).
    apply offset_inj in E; [|apply (out_extended lat Hv r [] _ _ Hr Hx' Ho)|exact He].
    rewrite E in *. apply Hc. intros j Hj. eapply out_outside; eauto.
  Qed.

  (** ** The array *)

  Lemma corner_nil_dec : forall r c, corner_of lat r [] c \/ reached lat r [] n c.
  Proof.
    intros r c. destruct (classic_upper (fun j => outside lat r c j) 0 n) as [(k & Hk & H)|H].
    { intros k. apply outside_dec. }
    - right. split; [intros j Hj; lia|]. exists k. split; auto. lia.
    - left. intros j Hj. cbn [In]. split; [tauto|]. intros Ho. elim (H j); auto. lia.
  Qed.

  Theorem halo_array : forall zero old r c, is_rank lat r -> (forall j, (j < n)%nat -> 1 <= ex r j) ->
    extended lat r c ->
    (~ above_single_layer lat r c -> forall z, wraps c z ->
       copy_local_data_with_halo lat zero st old r (pos r c) = F z) /\
    (above_single_layer lat r c ->
       copy_local_data_with_halo lat zero st old r (pos r c) = old r (pos r c)).
  Proof.
    intros zero old r c Hr Hex He. unfold copy_local_data_with_halo.
    destruct (loop_ok n [] (fun _ _ _ => zero, copy_bulk lat st old) (le_n _) (NoDup_nil _)
                ltac:(intros j []) (corner_nil lat st F Hv HF)) as (_ & A & B). cbn [snd] in B.
    split.
    - intros Hg z Hz. destruct (corner_nil_dec r c) as [H|H].
      + rewrite B; auto; [apply bulk_at; auto|]. intros [[_ (j & Hj & Ho)] _]. apply H in Ho; [elim Ho|lia].
      + auto.
    - intros Hg. rewrite B by tauto. apply bulk_kept; auto.
      intros H. destruct Hg as (j & Hj & E1 & E2). apply extended_spec in He; auto. destruct He as [Lc _].
      rewrite Lc in Hj. destruct (outside_dec lat r c j) as [Ho|Ho]; [apply H in Ho; [elim Ho|auto]|].
      unfold outside in Ho. lia.
  Qed.
End Halo.

(** ** Boxes and slices *)

Lemma range_box : forall cmin cmax, length cmin = length cmax ->
  Forall2 (fun a b => a <= b) cmin cmax ->
  exists sz, length sz = length cmin /\ coordinate_range cmin cmax = box_sites cmin sz /\
    Forall (fun s => 0 <= s) sz /\
    (forall j, (j < length cmin)%nat -> nth j sz 0 = nth j cmax 0 - nth j cmin 0 + 1).
Proof.
  intros cmin cmax _ H. induction H as [|a b cmin cmax Hab H IH].
  - exists []. split; [auto|]. split; [reflexivity|]. split; [constructor|]. simpl. lia.
  - destruct IH as (sz & Hl & E & Hs & Hn). exists ((b - a + 1) :: sz). split; [simpl; auto|].
    split; [|split].
    + cbn [coordinate_range]. rewrite E. reflexivity.
    + constructor; auto. lia.
    + intros [|j] Hj; cbn [nth]; auto. apply Hn. simpl in Hj. lia.
Qed.

Lemma range_okP : forall ls cmin cmax, range_ok ls cmin cmax = true <->
  length cmin = length ls /\ length cmax = length ls /\
  forall j, (j < length ls)%nat -> 0 <= nth j cmin 0 /\ nth j cmin 0 <= nth j cmax 0 < nth j ls 0.
Proof.
  induction ls as [|L ls IH]; destruct cmin as [|a cmin], cmax as [|b cmax]; cbn [range_ok length];
    try (split; [discriminate|intros (? & ? & _); lia]).
  - split; auto. intros _. split; auto. split; auto. simpl. lia.
  - rewrite !andb_true_iff, IH. split.
    + intros (((H1 & H2) & H3) & H4 & H5 & H6). split; [lia|]. split; [lia|].
      intros [|j] Hj; cbn [nth]; [lia|]. apply H6. lia.
    + intros (H4 & H5 & H6). assert (H0 := H6 O ltac:(lia)). cbn [nth] in H0.
      split; [lia|]. split; [lia|]. split; [lia|]. intros j Hj. apply (H6 (S j)). lia.
Qed.

Lemma range_ok_false : forall ls cmin cmax, range_ok ls cmin cmax = false ->
  ~ (length cmin = length ls /\ length cmax = length ls /\
     forall j, (j < length ls)%nat -> 0 <= nth j cmin 0 /\ nth j cmin 0 <= nth j cmax 0 < nth j ls 0).
Proof. intros ls cmin cmax H N. apply range_okP in N. congruence. Qed.

Lemma Forall2_nth_le : forall cmin cmax : list Z, length cmin = length cmax ->
  (forall j, (j < length cmin)%nat -> nth j cmin 0 <= nth j cmax 0) -> Forall2 (fun a b => a <= b) cmin cmax.
Proof.
  induction cmin as [|a cmin IH]; destruct cmax as [|b cmax]; simpl; intros Hl H; try discriminate; constructor.
  - apply (H O). lia.
  - apply IH; [lia|]. intros j Hj. apply (H (S j)). lia.
Qed.

Section Boxes.
  Context {V : Type}.
  Variables (lat : lattice) (st : rank_store V) (F : list Z -> V).
  Hypothesis Hv : valid_lattice lat.
  Hypothesis HF : represents lat st F.

  Lemma root_rank : is_rank lat 0.
  Proof.
    unfold is_rank, number_of_nodes. destruct Hv as (_ & _ & H & _). assert (P := zprod_pos _ H). lia.
  Qed.

  Lemma get_elements_ok : forall coords bcast r, Forall (is_site (l_size lat)) coords ->
    get_elements lat coords bcast st r = if bcast || (r =? 0) then Some (map F coords) else Some [].
  Proof.
    intros coords bcast r H. unfold get_elements.
    rewrite (gather_elements_ok V lat st F 0 coords Hv HF root_rank H). auto.
  Qed.

  Lemma subvolume_ok : forall cmin cmax bcast r, range_ok (l_size lat) cmin cmax = true ->
    let sz := spans cmin cmax in
    exists l, get_subvolume lat cmin cmax bcast st r = (if bcast || (r =? 0) then Some l else Some []) /\
      Z.of_nat (length l) = zprod sz /\
      forall c, in_range cmin cmax c -> 0 <= offset cmin sz c < zprod sz /\
        nth_error l (Z.to_nat (offset cmin sz c)) = Some (F c).
  Proof.
    intros cmin cmax bcast r Hok sz. unfold get_subvolume. rewrite Hok.
    apply range_okP in Hok. destruct Hok as (L1 & L2 & Hj).
    destruct (range_box cmin cmax ltac:(lia)) as (sz' & Hl & E & Hs & Hn).
    { apply Forall2_nth_le; [lia|]. intros j H. destruct (Hj j ltac:(lia)); lia. }
    assert (Esz : sz' = sz).
    { apply nth_ext with (d := 0) (d' := 0); [unfold sz, spans; rewrite map_length, seq_length; auto|].
      intros j H. rewrite Hl in H. rewrite Hn by auto. unfold sz, spans. set (f := fun j => _).
      rewrite (nth_indep (map f (seq 0 (length cmin))) 0 (f O)) by (rewrite map_length, seq_length; auto).
      rewrite map_nth, seq_nth by auto. reflexivity. }
    subst sz'. rewrite E. exists (map F (box_sites cmin sz)). split; [|split].
    - apply get_elements_ok. apply Forall_forall. intros c Hc. apply box_sites_In in Hc; auto.
      apply in_region_box in Hc. destruct Hc as (A & B & C). split; [lia|]. intros j H.
      specialize (C j ltac:(lia)). rewrite Hn in C by lia. specialize (Hj j H). lia.
    - rewrite map_length. apply box_sites_length; auto.
    - intros c (A & B & C).
      assert (Hreg : in_region cmin sz c).
      { split; [auto|]. split; [lia|]. intros j H. rewrite Hn by lia. specialize (C j H). lia. }
      assert (R := offset_range cmin sz c Hreg). split; [exact R|].
      assert (Hc : In c (box_sites cmin sz)) by (apply box_sites_In; auto; apply in_region_box; auto).
      apply In_nth_error in Hc. destruct Hc as [k Hk].
      assert (Hm := box_logical_index cmin sz (eq_sym Hl) Hs).
      assert (Ek : nth_error (map (logical_index_acc 1 cmin sz) (box_sites cmin sz)) k = Some (offset cmin sz c)).
      { rewrite nth_error_map, Hk. cbn [option_map]. rewrite offset_acc by lia. auto. }
      rewrite Hm in Ek. assert (Hkl := nth_error_Some (zrange 0 (Z.to_nat (zprod sz))) k).
      rewrite Ek in Hkl. assert (Hkb : (k < length (zrange 0 (Z.to_nat (zprod sz))))%nat) by (apply Hkl; discriminate).
      rewrite zrange_length in Hkb.
      assert (Eo : offset cmin sz c = Z.of_nat k).
      { apply nth_error_nth with (d := 0) in Ek. rewrite zrange_nth in Ek by auto. lia. }
      rewrite Eo, Nat2Z.id, nth_error_map, Hk. reflexivity.
  Qed.

  Lemma subvolume_bad : forall cmin cmax bcast r, range_ok (l_size lat) cmin cmax = false ->
    get_subvolume lat cmin cmax bcast st r = None.
  Proof. intros cmin cmax bcast r H. unfold get_subvolume. rewrite H. auto. Qed.
End Boxes.

Lemma slice_lengths : forall ls slice, length slice = length ls ->
  length (slice_min slice) = length ls /\ length (slice_max ls slice) = length ls.
Proof.
  induction ls as [|L ls IH]; destruct slice as [|s slice]; simpl; intros H; try discriminate; auto.
  destruct (IH slice ltac:(lia)). lia.
Qed.

Lemma slice_nth : forall ls slice, length slice = length ls -> forall j, (j < length ls)%nat ->
  nth j (slice_min slice) 0 = (if nth j slice 0 <? 0 then 0 else nth j slice 0) /\
  nth j (slice_max ls slice) 0 = (if nth j slice 0 <? 0 then nth j ls 0 - 1 else nth j slice 0).
Proof.
  induction ls as [|L ls IH]; destruct slice as [|s slice]; simpl; intros H j Hj; try discriminate; try lia.
  destruct j as [|j]; auto. apply IH; lia.
Qed.
