(** Blocked gauge fields. *)
From Verif Require Import Common GaugeModel GaugeSpec GaugeProofs1 ForceModel ForceSpec.
From Verif Require Import LayoutModel LayoutSpec LayoutProofs1 LayoutProofs2 LayoutProofs3 LayoutProps BlockModel BlockSpec BlockProofs1 LonglinkModel LonglinkSpec.

Section Dir.
  Context {V : Type} (mul : V -> V -> V).
  Variables (lat : lattice) (bf : list Z).
  Hypothesis Hv : valid_lattice lat.
  Hypothesis Hb : blocking (l_size lat) bf.
  Local Notation blk := (blocked lat bf).

  (** The rank without blocked sites, for which [block_from] returns early. *)
  Lemma fill_none : forall vol sel crd (mem : Z -> V) idx b,
    (forall i, In i idx -> sel (crd i) = None) -> fill_buf vol sel crd mem idx b = Some b.
  Proof.
    induction idx as [|i idx IH]; intros b H; cbn [fill_buf]; auto.
    rewrite H by (simpl; auto). apply IH. intros; apply H; simpl; auto.
  Qed.

  Lemma direction_block_from : forall r d (st : Z -> Z -> V) mem, is_rank lat r ->
    block_direction mul lat blk bf r d st mem =
    block_from lat blk r mem
      (if nth d bf 0 =? 1 then st r
       else fun i => mul (gather lat (Z.of_nat d) ALL st r i)
                         (read_neighbour lat r (Z.of_nat d) i (gather lat (Z.of_nat d) ALL st))).
  Proof.
    intros r d st mem Hr. unfold block_direction, block_from. rewrite (recovered lat bf Hv Hb).
    destruct (volume (nodeinfo blk r) =? 0) eqn:E0; [|reflexivity].
    apply Z.eqb_eq in E0. rewrite fill_none.
    - unfold loop_indices. cbn [loop_begin loop_end]. rewrite E0. reflexivity.
    - intros i Hi. apply all_indices in Hi; auto.
      destruct (coordinates_inverse lat r Hv Hr) as [_ Pc2].
      destruct (sel_parent (nodeinfo blk r) bf (coordinates (nodeinfo lat r) i)) eqn:E; auto.
      apply (sel_parent_some lat bf r Hv Hb Hr) in E; [|apply Pc2; auto].
      destruct E as (x & Hx & _). elim (empty_blk lat bf r Hv Hb Hr E0 x Hx).
  Qed.
End Dir.

(** Sites in both vocabularies. *)
Lemma on_lattice_site : forall L x, on_lattice L x <-> is_site L x.
Proof.
  intros L x. rewrite is_site_inside. unfold on_lattice, inside. split; intros H.
  - induction H; constructor; auto.
  - induction H; constructor; auto.
Qed.

Lemma nth_move : forall L s d x j, on_lattice L x -> (j < length L)%nat ->
  nth j (move s L d x) 0 = (nth j x 0 + (if (d =? j)%nat then s else 0)) mod nth j L 0.
Proof.
  intros L s d x j H. revert d j. induction H as [|l a L x Ha H IH]; intros d j Hj; [simpl in Hj; lia|].
  cbn [move]. destruct d as [|d], j as [|j]; cbn [nth Nat.eqb]; auto.
  - rewrite Z.add_0_r. symmetry. apply Z.mod_small.
    cbn [length] in Hj. assert (Hj' : (j < length L)%nat) by lia. clear - H Hj'.
    revert j Hj'. induction H; intros j Hj; [simpl in Hj; lia|]. destruct j; cbn [nth]; auto.
    apply IHForall2. simpl in Hj. lia.
  - rewrite Z.add_0_r. symmetry. apply Z.mod_small. auto.
  - apply IH. cbn [length] in Hj. lia.
Qed.

Lemma move_length : forall L s d x, length (move s L d x) = length x.
Proof.
  induction L as [|l L IH]; intros s d x; [reflexivity|]. destruct x; [reflexivity|]. cbn [move].
  destruct d; cbn [length]; auto.
Qed.

Lemma up_periodic : forall L d x, on_lattice L x -> (d < length L)%nat ->
  periodic_neighbour L x (Z.of_nat d) (up L d x).
Proof.
  intros L d x H Hd. assert (Hl : length x = length L) by (apply on_lattice_site in H; apply H).
  split; auto. split; [unfold up; rewrite move_length; auto|].
  intros j Hj. unfold up. rewrite nth_move by auto. f_equal. f_equal. unfold displacement.
  destruct (Nat.eqb_spec d j) as [->|].
  - rewrite Z.eqb_refl. reflexivity.
  - replace (Z.of_nat d =? Z.of_nat j) with false by (symmetry; apply Z.eqb_neq; lia).
    replace (Z.of_nat d =? _) with false by (symmetry; apply Z.eqb_neq; lia). reflexivity.
Qed.

(** A step of the blocked lattice is [bf] steps of the parent. *)
Lemma times_move : forall L bf, blocking L bf -> sizes L -> forall s d x,
  on_lattice (element_div L bf) x ->
  times bf (move s (element_div L bf) d x) = move (s * nth d bf 0) L d (times bf x).
Proof.
  intros L bf H. induction H as [|l b L bf Hlb H IH]; intros HL s d x Hx; cbn [element_div] in *.
  - inversion Hx; subst. reflexivity.
  - destruct x as [|a x]; inversion Hx as [|? ? ? ? Ha Hx']; subst. inversion HL as [|? ? Hl HL']; subst. cbn [move times].
    destruct Hlb as [Hb [k ->]]. destruct d as [|d]; cbn [times nth].
    + rewrite Z.mul_comm with (n := k), quot_exact in * by auto. f_equal.
      rewrite <- Z.mul_mod_distr_l by nia. f_equal. lia.
    + f_equal. apply IH; auto.
Qed.

Lemma blocked_sizes : forall lat bf, valid_lattice lat -> blocking (l_size lat) bf -> sizes (l_size (blocked lat bf)).
Proof. intros lat bf Hv Hb. apply blocked_valid; auto. Qed.

Lemma valid_sizes : forall lat, valid_lattice lat -> sizes (l_size lat).
Proof. intros lat Hv. apply Hv. Qed.

Lemma times_on : forall L bf x, blocking L bf -> on_lattice (element_div L bf) x -> on_lattice L (times bf x).
Proof. intros L bf x Hb H. apply (times_inside L bf x Hb). exact H. Qed.

(** ** One direction *)
Section Block.
  Variables (M : matrices) (ML : matrix_laws M) (lat : lattice) (bf : list Z).
  Hypothesis Hv : valid_lattice lat.
  Hypothesis Hb : blocking (l_size lat) bf.
  Hypothesis H2 : Forall (fun b => b <= 2) bf.
  Local Notation blk := (blocked lat bf).

  Lemma factor : forall d, (d < length (l_size lat))%nat -> nth d bf 0 = 1 \/ nth d bf 0 = 2.
  Proof.
    intros d Hd. rewrite <- (blocking_length _ _ Hb) in Hd.
    assert (Hp := blocking_pos _ _ Hb). rewrite Forall_forall in Hp, H2.
    specialize (Hp _ (nth_In _ 0 Hd)). specialize (H2 _ (nth_In _ 0 Hd)). lia.
  Qed.

  Lemma direction_ok : forall (U : gauge M) d r (st : Z -> Z -> mat M) mem, (d < length (l_size lat))%nat ->
    is_rank lat r -> represents lat st (U d) ->
    exists m, block_direction (mul M) lat blk bf r d st mem = Some m /\
      forall x, holds blk r x -> m (site_index (nodeinfo blk r) x) = long_link M (l_size lat) bf U d x.
  Proof.
    intros U d r st mem Hd Hr HU. rewrite direction_block_from by auto.
    destruct (block_from_ok lat bf r Hv Hb Hr mem
      (if nth d bf 0 =? 1 then st r
       else fun i => mul M (gather lat (Z.of_nat d) LayoutModel.ALL st r i)
              (read_neighbour lat r (Z.of_nat d) i (gather lat (Z.of_nat d) LayoutModel.ALL st)))) as (m & E & Hm & _).
    exists m. split; auto. intros x Hx. rewrite Hm by auto. unfold long_link.
    assert (Hh := holds_times lat bf r Hv Hb Hr x Hx).
    assert (Hdir : is_direction (l_size lat) (Z.of_nat d)) by (unfold is_direction; lia).
    destruct (factor d Hd) as [Ef|Ef]; rewrite Ef; cbn [Z.eqb Pos.eqb].
    - rewrite (HU r _ Hr Hh). change (Z.to_nat 1) with 1%nat. cbn [line]. rewrite (m_one_r M ML). reflexivity.
    - change (Z.to_nat 2) with 2%nat. cbn [line]. rewrite (m_one_r M ML).
      destruct (C04_gather_only_fills_its_halo _ lat Hv (Z.of_nat d) LayoutModel.ALL st (U d) Hdir HU) as [HG _].
      rewrite (HG r _ Hr Hh). f_equal.
      apply (C04_neighbour_read_after_gather _ lat Hv _ LayoutModel.ALL st (U d) Hdir HU r (times bf x)); auto.
      + exact I.
      + apply up_periodic; auto. apply on_lattice_site. eapply holds_is_site; eauto.
  Qed.

  Lemma directions_ok : forall (U : gauge M) (parent : nat -> Z -> Z -> mat M) r, is_rank lat r ->
    (forall d, (d < length (l_size lat))%nat -> represents lat (parent d) (U d)) ->
    forall ds mem, (forall d, In d ds -> (d < length (l_size lat))%nat) -> NoDup ds ->
    exists m, block_directions (mul M) lat blk bf r ds parent mem = Some m /\
      (forall d x, In d ds -> holds blk r x ->
         m d (site_index (nodeinfo blk r) x) = long_link M (l_size lat) bf U d x) /\
      (forall d, ~ In d ds -> m d = mem d).
  Proof.
    intros U parent r Hr HU ds. induction ds as [|d ds IH]; intros mem Hds Hn; cbn [block_directions].
    - exists mem. split; auto. split; auto. intros d x [].
    - inversion Hn; subst.
      destruct (direction_ok U d r (parent d) (mem d)) as (m & -> & Hm);
        [apply Hds; simpl; auto|auto|apply HU, Hds; simpl; auto|].
      destruct (IH (fun d' => if (d' =? d)%nat then m else mem d')) as (m' & E & H4 & H5);
        [intros; apply Hds; simpl; auto|auto|].
      exists m'. split; auto. split.
      + intros d' x Hd' Hx. destruct (in_dec Nat.eq_dec d' ds) as [Hi|Hi]; [auto|].
        rewrite H5 by auto. destruct Hd' as [<-|Hd']; [|tauto]. rewrite Nat.eqb_refl. auto.
      + intros d' Hd'. rewrite H5 by (intros Hc; apply Hd'; simpl; auto).
        destruct (Nat.eqb_spec d' d) as [->|]; [elim Hd'; simpl; auto|reflexivity].
  Qed.

  Lemma here_ok : forall (U : gauge M) (this : nat -> Z -> Z -> mat M) (fresh : nat -> Z -> mat M) r, is_rank lat r ->
    (forall d, (d < length (l_size lat))%nat -> represents lat (this d) (U d)) ->
    forall ds mem, (forall d, In d ds -> (d < length (l_size lat))%nat) -> NoDup ds ->
    exists m, fold_left (fun acc d =>
            match acc with
            | None => None
            | Some this' =>
                match block_direction (mul M) lat blk bf r d (this d) (fresh d) with
                | None => None
                | Some m => Some (fun d' => if (d' =? d)%nat then m else this' d')
                end
            end) ds (Some mem) = Some m /\
      (forall d x, In d ds -> holds blk r x ->
         m d (site_index (nodeinfo blk r) x) = long_link M (l_size lat) bf U d x) /\
      (forall d, ~ In d ds -> m d = mem d).
  Proof.
    intros U this fresh r Hr HU ds. induction ds as [|d ds IH]; intros mem Hds Hn; cbn [fold_left].
    - exists mem. split; auto. split; auto. intros d x [].
    - inversion Hn; subst.
      destruct (direction_ok U d r (this d) (fresh d)) as (m & -> & Hm);
        [apply Hds; simpl; auto|auto|apply HU, Hds; simpl; auto|].
      destruct (IH (fun d' => if (d' =? d)%nat then m else mem d')) as (m' & E & H4 & H5);
        [intros; apply Hds; simpl; auto|auto|].
      exists m'. split; auto. split.
      + intros d' x Hd' Hx. destruct (in_dec Nat.eq_dec d' ds) as [Hi|Hi]; [auto|].
        rewrite H5 by auto. destruct Hd' as [<-|Hd']; [|tauto]. rewrite Nat.eqb_refl. auto.
      + intros d' Hd'. rewrite H5 by (intros Hc; apply Hd'; simpl; auto).
        destruct (Nat.eqb_spec d' d) as [->|]; [elim Hd'; simpl; auto|reflexivity].
  Qed.

  Lemma factors_checked : forallb (fun b => b <=? 2) (element_div (l_size lat) (l_size blk)) = true.
  Proof.
    rewrite (recovered lat bf Hv Hb). apply forallb_forall. intros b Hi.
    rewrite Forall_forall in H2. apply Z.leb_le. auto.
  Qed.
End Block.
