(** Proofs for C09: blocked lattices are rank-local, block_from and unblock_to. *)
From Verif Require Import Common LayoutModel LayoutSpec LayoutProofs1 LayoutProofs2.
From Verif Require Import BlockModel BlockSpec.

Lemma blocking_length : forall ls bf, blocking ls bf -> length bf = length ls.
Proof. intros ls bf H. unfold blocking in H. induction H; simpl; auto. Qed.

Lemma quot_exact : forall b k, 0 < b -> Z.quot (b * k) b = k.
Proof. intros. rewrite Z.mul_comm. apply Z.quot_mul. lia. Qed.

(** Sizes of the blocked lattice. *)
Lemma element_div_times : forall ls bf, blocking ls bf ->
  times bf (element_div ls bf) = ls /\ length (element_div ls bf) = length ls.
Proof.
  intros ls bf H. induction H; simpl; auto. destruct H as [Hb [k ->]]. destruct IHForall2 as [E1 E2].
  rewrite E1, E2. rewrite (Z.mul_comm k y), quot_exact by auto. auto.
Qed.

Lemma element_div_pos : forall ls bf, blocking ls bf -> Forall (fun x => 0 < x) ls ->
  Forall (fun x => 0 < x) (element_div ls bf).
Proof.
  intros ls bf H. induction H; intros Hp; cbn [element_div]; constructor; inversion Hp; subst.
  - destruct H as [Hb [k ->]]. rewrite (Z.mul_comm k y), quot_exact by auto. nia.
  - apply IHForall2. auto.
Qed.

(** The blocking factor is recovered from the two sizes. *)
Lemma factor_recovered : forall ls bf, blocking ls bf -> Forall (fun x => 0 < x) ls ->
  element_div ls (element_div ls bf) = bf.
Proof.
  intros ls bf H. induction H; intros Hp; cbn [element_div]; auto. inversion Hp; subst.
  f_equal; auto. destruct H as [Hb [k ->]]. rewrite (Z.mul_comm k y), quot_exact by auto.
  rewrite Z.mul_comm. apply quot_exact. nia.
Qed.

Lemma blocked_valid : forall lat bf, valid_lattice lat -> blocking (l_size lat) bf ->
  valid_lattice (blocked lat bf).
Proof.
  intros lat bf (Hl & Hp & Hn & Hm & Hi) Hb. unfold valid_lattice, blocked, setup_blocked_lattice.
  unfold number_of_nodes in *. cbn [l_size n_divisions remap inverse_remap].
  destruct (element_div_times _ _ Hb) as [_ E].
  split; [congruence|]. split; [apply element_div_pos; auto|]. auto.
Qed.

Lemma blocked_rank : forall lat bf r, is_rank (blocked lat bf) r <-> is_rank lat r.
Proof. intros. unfold is_rank, blocked, setup_blocked_lattice, number_of_nodes. simpl. tauto. Qed.

(** Sites *)
Lemma times_inside : forall ls bf x, blocking ls bf ->
  (inside (element_div ls bf) x <-> inside ls (times bf x) /\ length x = length ls).
Proof.
  intros ls bf x H. revert x. induction H; intros c; cbn [element_div].
  - split.
    + intros Hc. inversion Hc; subst. split; [constructor|auto].
    + intros [_ Hc]. destruct c; [constructor|discriminate].
  - destruct H as [Hb [k ->]]. rewrite (Z.mul_comm k y), quot_exact by auto. split.
    + intros Hc. inversion Hc; subst. cbn [times]. apply IHForall2 in H4. destruct H4 as [H4 H5].
      split; [constructor; auto; nia|simpl; auto].
    + intros [Hc Hlen]. destruct c as [|z c]; [discriminate|]. cbn [times] in Hc.
      inversion Hc; subst. constructor; [nia|]. apply IHForall2. split; auto.
Qed.

Lemma times_site : forall lat bf x, blocking (l_size lat) bf -> is_site (l_size (blocked lat bf)) x ->
  is_site (l_size lat) (times bf x).
Proof.
  intros lat bf x Hb H. apply is_site_inside. apply is_site_inside in H.
  unfold blocked, setup_blocked_lattice in H. cbn [l_size] in H. apply times_inside in H; tauto.
Qed.

Lemma times_logical : forall ls bf nd x, blocking ls bf -> Forall (fun x => 0 < x) ls ->
  length x = length ls ->
  logical_node ls nd (times bf x) = logical_node (element_div ls bf) nd x.
Proof.
  intros ls bf nd x H. revert nd x. induction H; intros nd c Hp Hc.
  - reflexivity.
  - destruct c as [|z c]; [discriminate|]. destruct nd as [|n nd]; [reflexivity|].
    cbn [element_div times logical_node]. inversion Hp; subst. rewrite IHForall2 by (auto; simpl in Hc; lia).
    f_equal. destruct H as [Hb [k ->]]. rewrite (Z.mul_comm k y), quot_exact by auto.
    rewrite <- Z.mul_assoc. apply Z.div_mul_cancel_l; nia.
Qed.

Lemma same_rank : forall lat bf x, valid_lattice lat -> blocking (l_size lat) bf ->
  is_site (l_size (blocked lat bf)) x ->
  node_rank (blocked lat bf) x = node_rank lat (times bf x).
Proof.
  intros lat bf x (Hl & Hp & _) Hb Hx. unfold node_rank.
  rewrite times_logical; auto.
  destruct Hx as [Hx _]. rewrite Hx. unfold blocked, setup_blocked_lattice. cbn [l_size].
  apply element_div_times. auto.
Qed.

Lemma blocked_holds : forall lat bf r x, valid_lattice lat -> blocking (l_size lat) bf ->
  is_rank lat r -> length x = length (l_size lat) ->
  (holds (blocked lat bf) r x <-> holds lat r (times bf x)).
Proof.
  intros lat bf r x Hv Hb Hr Hx. rewrite !holds_iff by (auto using blocked_valid; apply blocked_rank; auto).
  rewrite !is_site_inside. unfold blocked, setup_blocked_lattice. cbn [l_size n_divisions inverse_remap].
  rewrite times_inside by auto. rewrite times_logical; [tauto|auto|apply Hv|auto].
Qed.

Lemma holds_length : forall lat r c, valid_lattice lat -> is_rank lat r -> holds lat r c ->
  length c = length (l_size lat).
Proof. intros lat r c Hv Hr H. apply holds_is_site in H; auto. apply H. Qed.

(** Divisible coordinates *)
Lemma divisible_times : forall ls bf c, blocking ls bf -> inside ls c ->
  (is_divisible c bf = true <-> times bf (element_div c bf) = c).
Proof.
  intros ls bf c H. revert c. induction H; intros c Hc; inversion Hc; subst.
  - simpl. tauto.
  - cbn [is_divisible element_div times]. destruct H as [Hb _].
    rewrite andb_true_iff, IHForall2 by auto. rewrite Z.eqb_eq.
    assert (E := Z.quot_rem' y0 y). split.
    + intros [H1 H2]. f_equal; [|auto]. rewrite H1, Z.add_0_r in E. auto.
    + intros H1. injection H1 as E1 E2. split; [|exact E2].
      generalize dependent (Z.rem y0 y). intros z E. rewrite E1 in E. clear - E. lia.
Qed.

Lemma times_divisible : forall bf x, Forall (fun b => 0 < b) bf -> length x = length bf ->
  is_divisible (times bf x) bf = true /\ element_div (times bf x) bf = x.
Proof.
  induction bf; intros x Hp Hl; destruct x as [|y x]; try discriminate; simpl; auto.
  inversion Hp; subst. destruct (IHbf x) as [E1 E2]; auto. rewrite E1, E2, quot_exact by auto.
  rewrite Z.mul_comm, Z.rem_mul by lia. auto.
Qed.

Lemma blocking_pos : forall ls bf, blocking ls bf -> Forall (fun b => 0 < b) bf.
Proof. intros ls bf H. induction H; constructor; tauto. Qed.

(** Local lexicographic index *)
Lemma logical_index_bijection : forall lat r, valid_lattice lat -> is_rank lat r ->
  (forall c, holds lat r c -> 0 <= get_logical_index (nodeinfo lat r) c < volume (nodeinfo lat r)) /\
  (forall c c', holds lat r c -> holds lat r c' ->
     get_logical_index (nodeinfo lat r) c = get_logical_index (nodeinfo lat r) c' -> c = c').
Proof.
  intros lat r Hv Hr. assert (HV := rank_volume lat r Hv Hr).
  destruct (rank_box _ _ Hv Hr) as (mn & sz & E & Hl & Hs & Emn & Esz).
  unfold get_logical_index, holds. rewrite HV, <- Emn, <- Esz.
  assert (B := box_logical_index mn sz Hl Hs). split.
  - intros c Hc. apply in_region_box, box_sites_In in Hc; auto.
    apply (in_map (logical_index_acc 1 mn sz)) in Hc. rewrite B in Hc. apply zrange_In in Hc.
    assert (0 <= zprod sz) by (apply zprod_nonneg; auto). lia.
  - intros c c' Hc Hc'. apply in_region_box, box_sites_In in Hc, Hc'; auto.
    apply NoDup_map_eq with (l := box_sites mn sz); auto. rewrite B. apply zrange_NoDup.
Qed.

Lemma all_indices : forall lat r i, valid_lattice lat -> is_rank lat r ->
  (In i (loop_indices (nodeinfo lat r) ALL) <-> 0 <= i < volume (nodeinfo lat r)).
Proof.
  intros. unfold loop_indices. cbn [loop_begin loop_end]. rewrite zrange_In. lia.
Qed.

(** ** The two loops *)
Section Loops.
  Context {V : Type}.

  Lemma fill_buf_ok : forall vol sel crd (mem : Z -> V) idx b,
    (forall i k, In i idx -> sel (crd i) = Some k -> 0 <= k < vol) ->
    (forall i i' k, In i idx -> In i' idx -> sel (crd i) = Some k -> sel (crd i') = Some k -> i = i') ->
    exists b', fill_buf vol sel crd mem idx b = Some b' /\
      (forall i k, In i idx -> sel (crd i) = Some k -> b' k = Some (mem i)) /\
      (forall k, (forall i, In i idx -> sel (crd i) <> Some k) -> b' k = b k).
  Proof.
    induction idx as [|j idx IH]; intros b Hr Hu; cbn [fill_buf].
    - exists b. split; auto. split; auto. intros i k [].
    - destruct (sel (crd j)) as [k|] eqn:Ek.
      + unfold buf_write. assert (0 <= k < vol) by (apply (Hr j); simpl; auto).
        replace ((0 <=? k) && (k <? vol)) with true by (symmetry; apply andb_true_iff; lia).
        destruct (IH (zupd b k (Some (mem j)))) as (b' & E1 & E2 & E3).
        * intros; apply (Hr i); simpl; auto.
        * intros i i' k' H1 H2; apply Hu; simpl; auto.
        * exists b'. split; auto. split.
          -- intros i k' Hi Hk. destruct Hi as [<-|Hi]; [|eauto].
             assert (k' = k) by congruence. subst k'.
             destruct (in_dec Z.eq_dec j idx) as [Hj|Hj]; [eauto|].
             rewrite E3; [apply zupd_same|].
             intros i Hi Hk'. apply Hj. replace j with i; auto.
             apply (Hu i j k); simpl; auto.
          -- intros k' Hk'. rewrite E3 by (intros; apply Hk'; simpl; auto).
             apply zupd_other. intros ->. apply (Hk' j); simpl; auto.
      + destruct (IH b) as (b' & E1 & E2 & E3).
        * intros; apply (Hr i); simpl; auto.
        * intros i i' k' H1 H2; apply Hu; simpl; auto.
        * exists b'. split; auto. split.
          -- intros i k' Hi Hk. destruct Hi as [<-|Hi]; [congruence|eauto].
          -- intros k' Hk'. apply E3. intros; apply Hk'; simpl; auto.
  Qed.

  Lemma read_buf_ok : forall vol sel crd (b : tmp_buf V) (f : Z -> V) idx mem,
    (forall i k, In i idx -> sel (crd i) = Some k -> 0 <= k < vol /\ b k = Some (f i)) ->
    exists m', read_buf vol sel crd b idx mem = Some m' /\
      (forall i k, In i idx -> sel (crd i) = Some k -> m' i = f i) /\
      (forall i, (In i idx -> sel (crd i) = None) -> m' i = mem i).
  Proof.
    induction idx as [|j idx IH]; intros mem H; cbn [read_buf].
    - exists mem. split; auto. split; auto. intros i k [].
    - destruct (sel (crd j)) as [k|] eqn:Ek.
      + destruct (H j k) as [Hk Eb]; simpl; auto. unfold buf_read.
        replace ((0 <=? k) && (k <? vol)) with true by (symmetry; apply andb_true_iff; lia).
        rewrite Eb. destruct (IH (zupd mem j (f j))) as (m' & E1 & E2 & E3).
        { intros; apply H; simpl; auto. }
        exists m'. split; auto. split.
        * intros i k' Hi Hk'. destruct (in_dec Z.eq_dec i idx); [eauto|].
          destruct Hi as [->|Hi]; [|tauto]. rewrite E3 by tauto. apply zupd_same.
        * intros i Hi. rewrite E3 by (intros; apply Hi; simpl; auto).
          apply zupd_other. intros ->. assert (sel (crd j) = None) by (apply Hi; simpl; auto). congruence.
      + destruct (IH mem) as (m' & E1 & E2 & E3).
        { intros; apply H; simpl; auto. }
        exists m'. split; auto. split.
        * intros i k' Hi Hk'. destruct Hi as [<-|Hi]; [congruence|eauto].
        * intros i Hi. apply E3. intros; apply Hi; simpl; auto.
  Qed.
End Loops.

(** ** The copies *)
Section Copies.
  Context {V : Type}.
  Variables (lat : lattice) (bf : list Z) (r : Z).
  Hypothesis Hv : valid_lattice lat.
  Hypothesis Hb : blocking (l_size lat) bf.
  Hypothesis Hr : is_rank lat r.

  Local Notation blk := (blocked lat bf).
  Local Notation pni := (nodeinfo lat r).
  Local Notation bni := (nodeinfo blk r).

  Local Lemma Hbv : valid_lattice blk. Proof. apply blocked_valid; auto. Qed.
  Local Lemma Hbr : is_rank blk r. Proof. apply blocked_rank; auto. Qed.

  Lemma recovered : element_div (l_size lat) (l_size blk) = bf.
  Proof. apply factor_recovered; auto. apply Hv. Qed.

  Lemma size_blk_length : length (l_size blk) = length (l_size lat).
  Proof. apply element_div_times. auto. Qed.

  (** Buffer index of a parent site. *)
  Lemma sel_parent_some : forall c k, holds lat r c -> sel_parent bni bf c = Some k ->
    exists x, holds blk r x /\ c = times bf x /\ k = get_logical_index bni x.
  Proof.
    intros c k Hc. unfold sel_parent. destruct (is_divisible c bf) eqn:E; [|discriminate].
    intros H. inversion H; subst k; clear H. exists (element_div c bf).
    assert (Hs := holds_is_site _ _ _ Hv Hr Hc). apply is_site_inside in Hs.
    assert (E' := E). apply (divisible_times (l_size lat)) in E'; auto.
    split; [|split; auto]. apply blocked_holds; auto.
    - rewrite <- (holds_length _ _ _ Hv Hr Hc). clear - Hs Hb. unfold blocking in Hb.
      revert c Hs. induction Hb; intros c Hs; inversion Hs; subst; simpl; auto.
    - rewrite E'. auto.
  Qed.

  Lemma sel_parent_times : forall x, holds blk r x ->
    sel_parent bni bf (times bf x) = Some (get_logical_index bni x).
  Proof.
    intros x Hx. unfold sel_parent.
    destruct (times_divisible bf x) as [E1 E2].
    - eapply blocking_pos; eauto.
    - rewrite (holds_length _ _ _ Hbv Hbr Hx), size_blk_length. symmetry. apply blocking_length. auto.
    - rewrite E1, E2. auto.
  Qed.

  Lemma blk_length : forall x, holds blk r x -> length x = length (l_size lat).
  Proof. intros x Hx. rewrite (holds_length _ _ _ Hbv Hbr Hx). apply size_blk_length. Qed.

  Lemma holds_times : forall x, holds blk r x -> holds lat r (times bf x).
  Proof. intros x Hx. apply blocked_holds; auto. apply blk_length; auto. Qed.

  Lemma times_inj : forall x y, holds blk r x -> holds blk r y -> times bf x = times bf y -> x = y.
  Proof.
    intros x y Hx Hy E.
    assert (Hl : length bf = length (l_size lat)) by (apply blocking_length; auto).
    destruct (times_divisible bf x) as [_ E1]; [eapply blocking_pos; eauto|rewrite (blk_length x); auto|].
    destruct (times_divisible bf y) as [_ E2]; [eapply blocking_pos; eauto|rewrite (blk_length y); auto|].
    congruence.
  Qed.

  Lemma empty_blk : volume bni = 0 -> forall x, ~ holds blk r x.
  Proof.
    intros E x Hx. destruct (site_index_bijection blk r Hbv Hbr) as (H & _ & _).
    specialize (H x Hx). lia.
  Qed.

  (** C09: block_from *)
  Lemma block_from_ok : forall (mem orig : Z -> V),
    exists m', block_from lat blk r mem orig = Some m' /\
      (forall x, holds blk r x -> m' (site_index bni x) = orig (site_index pni (times bf x))) /\
      (forall i, ~ (0 <= i < volume bni) -> m' i = mem i).
  Proof.
    intros mem orig. unfold block_from. destruct (volume bni =? 0) eqn:E0.
    { apply Z.eqb_eq in E0. exists mem. split; auto. split; auto. intros x Hx. elim (empty_blk E0 x Hx). }
    rewrite recovered.
    destruct (coordinates_inverse lat r Hv Hr) as [Pc1 Pc2].
    destruct (coordinates_inverse blk r Hbv Hbr) as [Bc1 Bc2].
    destruct (site_index_bijection lat r Hv Hr) as (Pi1 & Pi2 & _).
    destruct (site_index_bijection blk r Hbv Hbr) as (Bi1 & Bi2 & _).
    destruct (logical_index_bijection blk r Hbv Hbr) as [Li1 Li2].
    destruct (fill_buf_ok (volume bni) (sel_parent bni bf) (coordinates pni) orig
                (loop_indices pni ALL) (fun _ => None)) as (b & Eb & Hb1 & _).
    { intros i k Hi Hk. apply all_indices in Hi; auto. apply sel_parent_some in Hk; [|apply Pc2; auto].
      destruct Hk as (x & Hx & _ & ->). auto. }
    { intros i i' k Hi Hi' Hk Hk'. apply all_indices in Hi, Hi'; auto.
      apply sel_parent_some in Hk, Hk'; try (apply Pc2; auto).
      destruct Hk as (x & Hx & Ex & ->). destruct Hk' as (x' & Hx' & Ex' & El).
      apply Li2 in El; auto. subst x'.
      rewrite <- (proj2 (Pc2 i Hi)), <- (proj2 (Pc2 i' Hi')). congruence. }
    rewrite Eb.
    destruct (read_buf_ok (volume bni) (sel_block bni) (coordinates bni) b
                (fun i => orig (site_index pni (times bf (coordinates bni i))))
                (loop_indices bni ALL) mem) as (m' & Em & Hm1 & Hm2).
    { intros i k Hi Hk. apply all_indices in Hi; auto using Hbv, Hbr.
      unfold sel_block in Hk. inversion Hk; subst k. destruct (Bc2 i Hi) as [Hx Ex].
      split; auto. apply Hb1.
      - apply all_indices; auto. apply Pi1. apply holds_times. auto.
      - rewrite Pc1 by (apply holds_times; auto). apply sel_parent_times. auto. }
    exists m'. split; auto. split.
    - intros x Hx. rewrite (Hm1 _ (get_logical_index bni x)).
      + rewrite Bc1; auto.
      + apply all_indices; auto using Hbv, Hbr.
      + unfold sel_block. rewrite Bc1; auto.
    - intros i Hi. apply Hm2. intros H. apply all_indices in H; auto using Hbv, Hbr. tauto.
  Qed.

  (** C09: unblock_to *)
  Lemma unblock_to_ok : forall (mem target : Z -> V),
    exists m', unblock_to lat blk r mem target = Some m' /\
      (forall x, holds blk r x -> m' (site_index pni (times bf x)) = mem (site_index bni x)) /\
      (forall i, (forall x, holds blk r x -> i <> site_index pni (times bf x)) -> m' i = target i).
  Proof.
    intros mem target. unfold unblock_to. destruct (volume bni =? 0) eqn:E0.
    { apply Z.eqb_eq in E0. exists target. split; auto. split; auto. intros x Hx. elim (empty_blk E0 x Hx). }
    rewrite recovered.
    destruct (coordinates_inverse lat r Hv Hr) as [Pc1 Pc2].
    destruct (coordinates_inverse blk r Hbv Hbr) as [Bc1 Bc2].
    destruct (site_index_bijection lat r Hv Hr) as (Pi1 & Pi2 & _).
    destruct (site_index_bijection blk r Hbv Hbr) as (Bi1 & Bi2 & _).
    destruct (logical_index_bijection blk r Hbv Hbr) as [Li1 Li2].
    destruct (fill_buf_ok (volume bni) (sel_block bni) (coordinates bni) mem
                (loop_indices bni ALL) (fun _ => None)) as (b & Eb & Hb1 & _).
    { intros i k Hi Hk. apply all_indices in Hi; auto using Hbv, Hbr.
      unfold sel_block in Hk. inversion Hk; subst k. apply Li1. apply Bc2. auto. }
    { intros i i' k Hi Hi' Hk Hk'. apply all_indices in Hi, Hi'; auto using Hbv, Hbr.
      unfold sel_block in Hk, Hk'. inversion Hk; subst k. inversion Hk'.
      destruct (Bc2 i Hi) as [H1 H2]. destruct (Bc2 i' Hi') as [H3 H4].
      apply Li2 in H0; auto. congruence. }
    rewrite Eb.
    destruct (read_buf_ok (volume bni) (sel_parent bni bf) (coordinates pni) b
                (fun i => mem (site_index bni (element_div (coordinates pni i) bf)))
                (loop_indices pni ALL) target) as (m' & Em & Hm1 & Hm2).
    { intros i k Hi Hk. apply all_indices in Hi; auto. destruct (Pc2 i Hi) as [Hc Ec].
      apply sel_parent_some in Hk; auto. destruct Hk as (x & Hx & Ex & ->). split; auto.
      assert (Ed : element_div (coordinates pni i) bf = x).
      { rewrite Ex. apply times_divisible; [eapply blocking_pos; eauto|].
        rewrite (blk_length x); auto. symmetry. apply blocking_length. auto. }
      rewrite Ed. apply Hb1.
      - apply all_indices; auto using Hbv, Hbr.
      - unfold sel_block. rewrite Bc1; auto. }
    exists m'. split; auto. split.
    - intros x Hx. rewrite (Hm1 _ (get_logical_index bni x)).
      + rewrite Pc1 by (apply holds_times; auto).
        rewrite (proj2 (times_divisible bf x (blocking_pos _ _ Hb)
                  (eq_trans (blk_length x Hx) (eq_sym (blocking_length _ _ Hb))))). auto.
      + apply all_indices; auto. apply Pi1, holds_times; auto.
      + rewrite Pc1 by (apply holds_times; auto). apply sel_parent_times. auto.
    - intros i Hi. apply Hm2. intros H. apply all_indices in H; auto.
      destruct (sel_parent bni bf (coordinates pni i)) as [k|] eqn:Es; auto.
      apply sel_parent_some in Es; [|apply Pc2; auto]. destruct Es as (x & Hx & Ex & _).
      elim (Hi x Hx). rewrite <- Ex. symmetry. apply Pc2. auto.
  Qed.
End Copies.
