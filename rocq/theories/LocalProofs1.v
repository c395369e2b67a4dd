(** Positions in the arrays, and the arrays of a rank's own sites. *)
From Verif Require Import Common LayoutModel LayoutSpec LayoutProofs1 LayoutProofs2
  ElementModel LocalModel LocalSpec.

(** ** Positions *)

Lemma dot_acc : forall c mn sz v, length mn = length sz -> length c = length sz ->
  dot (minus c mn) (multipliers v sz) = logical_index_acc v mn sz c.
Proof.
  induction c as [|x c IH]; destruct mn, sz; simpl; intros; try lia; auto.
  rewrite IH by lia. lia.
Qed.

Lemma offset_cons : forall m mn s sz x c,
  offset (m :: mn) (s :: sz) (x :: c) = (x - m) + s * offset mn sz c.
Proof.
  intros. unfold offset. cbn [length seq map zsum fold_right]. rewrite <- seq_shift, map_map.
  cbn [nth firstn zprod fold_right]. fold zsum.
  enough (E : forall l, zsum (map (fun j => (nth j c 0 - nth j mn 0) * (s * zprod (firstn j sz))) l) =
              s * zsum (map (fun j => (nth j c 0 - nth j mn 0) * zprod (firstn j sz)) l)).
  { rewrite <- E. unfold zsum, zprod. lia. }
  induction l as [|j l IH]; simpl; [lia|]. unfold zsum in *. rewrite IH. lia.
Qed.

Lemma offset_acc : forall mn sz c, length mn = length sz -> length c = length sz ->
  logical_index_acc 1 mn sz c = offset mn sz c.
Proof.
  induction mn as [|m mn IH]; destruct sz as [|s sz], c as [|x c]; simpl; intros; try lia; auto.
  rewrite offset_cons, <- IH by lia.
  replace (match s with 0 => 0 | Z.pos y' => Z.pos y' | Z.neg y' => Z.neg y' end) with s by (destruct s; auto).
  rewrite (logical_index_acc_scale mn sz c s). lia.
Qed.

Lemma dot_offset : forall mn sz c, length mn = length sz -> length c = length sz ->
  dot (minus c mn) (multipliers 1 sz) = offset mn sz c.
Proof. intros. rewrite dot_acc, offset_acc; auto. Qed.

Lemma offset_range : forall mn sz c, in_region mn sz c -> 0 <= offset mn sz c < zprod sz.
Proof.
  intros mn sz c H. apply in_region_box in H. revert sz c H.
  induction mn as [|m mn IH]; destruct sz as [|s sz], c as [|x c]; simpl; intros; try discriminate.
  - unfold offset. simpl. lia.
  - rewrite !andb_true_iff in H. destruct H as [[Ha Hb] Hc]. apply IH in Hc.
    rewrite offset_cons. unfold zprod in *. cbn [fold_right]. nia.
Qed.

Lemma offset_inj : forall mn sz c c', in_region mn sz c -> in_region mn sz c' ->
  offset mn sz c = offset mn sz c' -> c = c'.
Proof.
  intros mn sz c c' H H'. apply in_region_box in H. apply in_region_box in H'. revert sz c c' H H'.
  induction mn as [|m mn IH]; destruct sz as [|s sz], c as [|x c], c' as [|x' c']; simpl; intros;
    try discriminate; auto.
  rewrite !andb_true_iff in H, H'. destruct H as [[Ha Hb] Hc], H' as [[Ha' Hb'] Hc'].
  rewrite !offset_cons in H0.
  assert (G : x = x' /\ offset mn sz c = offset mn sz c').
  { assert (x - m = x' - m /\ offset mn sz c = offset mn sz c'); [|lia].
    assert (E : (x - m + s * offset mn sz c) mod s = (x' - m + s * offset mn sz c') mod s) by (rewrite H0; auto).
    rewrite !(Z.mul_comm s), !Z.mod_add, !Z.mod_small in E by lia. split; [lia|nia]. }
  destruct G as [-> E]. f_equal. eapply IH; eauto.
Qed.

Lemma offset_surj : forall mn sz i, length mn = length sz -> Forall (fun s => 0 <= s) sz ->
  0 <= i < zprod sz -> exists c, in_region mn sz c /\ offset mn sz c = i.
Proof.
  intros mn sz i Hl Hs Hi. assert (E := box_logical_index mn sz Hl Hs).
  assert (I : In i (zrange 0 (Z.to_nat (zprod sz)))) by (apply zrange_In; lia).
  rewrite <- E in I. apply in_map_iff in I. destruct I as (c & <- & Hc).
  apply box_sites_In in Hc; auto. exists c. split; [apply in_region_box; auto|].
  apply in_box_length in Hc. symmetry. apply offset_acc; lia.
Qed.

(** ** Loops of writes to an array *)

Section Writes.
  Context {V A : Type}.
  Variable w : A -> option (Z * V).

  Definition writes (l : list A) (D : Z -> V) : Z -> V :=
    fold_left (fun D i => match w i with Some (k, v) => zupd D k v | None => D end) l D.

  Lemma writes_other : forall l D k, (forall i v, In i l -> w i <> Some (k, v)) -> writes l D k = D k.
  Proof.
    induction l as [|i l IH]; intros D k H; [reflexivity|]. unfold writes in *. cbn [fold_left].
    rewrite IH by (intros; apply H; right; auto).
    destruct (w i) as [[k' v]|] eqn:E; auto. rewrite zupd_other; auto.
    intros ->. apply (H i v); [left|]; auto.
  Qed.

  Lemma writes_at : forall l D k v, (exists i, In i l /\ w i = Some (k, v)) ->
    (forall i v', In i l -> w i = Some (k, v') -> v' = v) -> writes l D k = v.
  Proof.
    intros l D k v He Ha.
    assert (H : (exists i, In i l /\ w i = Some (k, v)) \/ D k = v) by auto. clear He.
    revert D H. induction l as [|i l IH]; intros D H.
    - destruct H as [(i & [] & _)|H]; auto.
    - unfold writes in *. cbn [fold_left]. apply IH; [intros; apply (Ha i0); [right|]; auto|].
      destruct (w i) as [[k' v']|] eqn:E.
      + destruct (Z.eq_dec k' k) as [->|N].
        * right. rewrite zupd_same. apply (Ha i); [left|]; auto.
        * destruct H as [(i' & [->|Hi] & H)|H].
          -- congruence.
          -- left. exists i'. auto.
          -- right. rewrite zupd_other; auto.
      + destruct H as [(i' & [->|Hi] & H)|H]; [congruence|left; exists i'; auto|auto].
  Qed.
End Writes.

(** ** The box of a rank *)

Section Rank.
  Variables (lat : lattice) (r : Z).
  Hypothesis Hv : valid_lattice lat.
  Hypothesis Hr : is_rank lat r.
  Notation ni := (nodeinfo lat r).

  Lemma box_lengths : length (n_min ni) = length (l_size lat) /\ length (n_siz ni) = length (l_size lat).
  Proof.
    assert (Hg := valid_grid _ Hv).
    rewrite nodeinfo_min, nodeinfo_siz, node_min_length, node_size_length; auto.
  Qed.

  Lemma box_sizes : Forall (fun s => 0 <= s) (n_siz ni).
  Proof. destruct (rank_box _ _ Hv Hr) as (mn & sz & _ & _ & Hs & _ & <-). auto. Qed.

  Lemma box_volume : volume ni = zprod (n_siz ni).
  Proof.
    apply rank_volume; auto.
  Qed.

  Lemma loop_sites : forall i, In i (loop_indices ni ALL) <-> 0 <= i < volume ni.
  Proof.
    intros i. unfold loop_indices, loop_begin, loop_end. rewrite zrange_In, Z.sub_0_r.
    assert (0 <= volume ni). { rewrite box_volume. apply zprod_nonneg, box_sizes. } lia.
  Qed.

  Lemma held_index : forall c, holds lat r c ->
    0 <= site_index ni c < volume ni /\ coordinates ni (site_index ni c) = c.
  Proof.
    intros c H. destruct (coordinates_inverse _ _ Hv Hr) as [A B].
    destruct (site_index_bijection _ _ Hv Hr) as [C _]. split; auto.
  Qed.

  Lemma index_held : forall i, 0 <= i < volume ni ->
    holds lat r (coordinates ni i) /\ site_index ni (coordinates ni i) = i.
  Proof. intros. destruct (coordinates_inverse _ _ Hv Hr) as [A B]. auto. Qed.

  Lemma held_length : forall c, holds lat r c -> length c = length (l_size lat).
  Proof. intros c (A & _). destruct box_lengths. rewrite <- A. auto. Qed.

  Lemma local_offset : forall c, length c = length (l_size lat) ->
    dot (minus c (n_min ni)) (multipliers 1 (n_siz ni)) = offset (lower lat r) (extent lat r) c.
  Proof. intros c H. destruct box_lengths. unfold lower, extent. apply dot_offset; lia. Qed.
End Rank.
