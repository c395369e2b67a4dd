(** The arrays of a rank's own sites, and the boxes of neighbouring ranks. *)
From Verif Require Import Common LayoutModel LayoutSpec LayoutProofs1 LayoutProofs2 LayoutProofs8
  ElementModel LocalModel LocalSpec LocalProofs1.

Section Arrays.
  Context {V : Type}.
  Variables (lat : lattice) (r : Z).
  Hypothesis Hv : valid_lattice lat.
  Hypothesis Hr : is_rank lat r.
  Notation ni := (nodeinfo lat r).
  Notation pos := (offset (lower lat r) (extent lat r)).

  Lemma held_pos : forall c, holds lat r c -> 0 <= pos c < volume ni.
  Proof. intros c H. rewrite box_volume; auto. apply offset_range. exact H. Qed.

  Lemma copy_writes : forall vals old : Z -> V, copy_local_data ni vals old =
    writes (fun i => Some (dot (minus (coordinates ni i) (n_min ni)) (multipliers 1 (n_siz ni)), vals i))
           (loop_indices ni ALL) old.
  Proof. reflexivity. Qed.

  Lemma copy_at : forall (vals old : Z -> V) c, holds lat r c ->
    copy_local_data ni vals old (pos c) = vals (site_index ni c).
  Proof.
    intros vals old c H. rewrite copy_writes. destruct (held_index lat r Hv Hr c H) as [Hi Hc].
    apply writes_at.
    - exists (site_index ni c). rewrite loop_sites, Hc, local_offset; auto. eapply held_length; eauto.
    - intros i v' Hi' E. rewrite loop_sites in Hi' by auto. destruct (index_held lat r Hv Hr i Hi') as [H' E'].
      rewrite local_offset in E; auto; [|eapply held_length; eauto]. injection E as E1 E2.
      apply offset_inj in E1; [|exact H'|exact H]. rewrite <- E1, E', E2. auto.
  Qed.

  Lemma copy_other : forall (vals old : Z -> V) i, ~ 0 <= i < volume ni ->
    copy_local_data ni vals old i = old i.
  Proof.
    intros vals old i H. rewrite copy_writes. apply writes_other.
    intros j v Hj E. rewrite loop_sites in Hj by auto. destruct (index_held lat r Hv Hr j Hj) as [H' E'].
    rewrite local_offset in E; auto; [|eapply held_length; eauto]. injection E as E1 E2.
    apply H. rewrite <- E1. apply held_pos. auto.
  Qed.

  Lemma set_writes : forall n (b vals : Z -> V), volume ni <= n -> set_local_data ni n b vals =
    Some (writes (fun i => Some (i, b (dot (minus (coordinates ni i) (n_min ni)) (multipliers 1 (n_siz ni)))))
           (loop_indices ni ALL) vals).
  Proof.
    intros n b vals H. unfold set_local_data. destruct (Z.ltb_spec n (volume ni)); [lia|]. reflexivity.
  Qed.

  Lemma set_at : forall n (b vals : Z -> V), volume ni <= n ->
    exists vals', set_local_data ni n b vals = Some vals' /\
      (forall c, holds lat r c -> vals' (site_index ni c) = b (pos c)) /\
      (forall i, ~ 0 <= i < volume ni -> vals' i = vals i).
  Proof.
    intros n b vals H. rewrite set_writes by auto. eexists. split; [reflexivity|]. split.
    - intros c Hc. destruct (held_index lat r Hv Hr c Hc) as [Hi Ec]. apply writes_at.
      + exists (site_index ni c). rewrite loop_sites, Ec, local_offset; auto. eapply held_length; eauto.
      + intros i v' Hi' E. injection E as E1 E2. rewrite <- E2, E1, Ec, local_offset; auto.
        eapply held_length; eauto.
    - intros i Hi. apply writes_other. intros j v Hj E. injection E as E1 E2. subst j.
      apply loop_sites in Hj; auto.
  Qed.

  Lemma set_too_small : forall n (b vals : Z -> V), n < volume ni -> set_local_data ni n b vals = None.
  Proof. intros n b vals H. unfold set_local_data. destruct (Z.ltb_spec n (volume ni)); [auto|lia]. Qed.
End Arrays.

(** ** Boxes of the ranks *)

Lemma logical_min : forall ls nd, grid ls nd -> forall c j, inside ls c -> (j < length ls)%nat ->
  nth j (node_min ls nd (logical_node ls nd c)) 0 =
    divisor (nth j ls 0) (nth j nd 0) ((nth j c 0 * nth j nd 0) / nth j ls 0) /\
  nth j (node_size ls nd (logical_node ls nd c)) 0 =
    divisor (nth j ls 0) (nth j nd 0) ((nth j c 0 * nth j nd 0) / nth j ls 0 + 1) -
    divisor (nth j ls 0) (nth j nd 0) ((nth j c 0 * nth j nd 0) / nth j ls 0).
Proof.
  induction 1 as [|L ls n nd HL Hn Hg IH]; intros c j Hc Hj; [simpl in Hj; lia|].
  inversion Hc as [|? x ? c' Hx Hc']; subst. cbn [logical_node node_min node_size].
  assert (Hq : 0 <= x * n / L < n)
    by (split; [apply Z.div_pos; nia|apply Z.div_lt_upper_bound; nia]).
  rewrite (Z.add_comm (_ * n)), Z.mod_add, Z.div_add, Z.mod_small, (Z.div_small _ n) by lia.
  destruct j as [|j]; cbn [nth]; [auto|]. rewrite Z.add_0_l. apply IH; auto. simpl in Hj. lia.
Qed.

(** Sites that agree in a component are on ranks whose boxes agree in that direction. *)
Lemma same_interval : forall lat r r' c c' j, valid_lattice lat -> is_rank lat r -> is_rank lat r' ->
  holds lat r c -> holds lat r' c' -> (j < length (l_size lat))%nat -> nth j c 0 = nth j c' 0 ->
  nth j (lower lat r) 0 = nth j (lower lat r') 0 /\ nth j (extent lat r) 0 = nth j (extent lat r') 0.
Proof.
  intros lat r r' c c' j Hv Hr Hr' Hc Hc' Hj E. assert (Hg := valid_grid _ Hv).
  apply holds_iff in Hc; auto. apply holds_iff in Hc'; auto.
  destruct Hc as [Hs El], Hc' as [Hs' El']. apply is_site_inside in Hs. apply is_site_inside in Hs'.
  unfold lower, extent. rewrite !nodeinfo_min, !nodeinfo_siz, <- El, <- El'.
  destruct (logical_min _ _ Hg c j Hs Hj) as [-> ->]. destruct (logical_min _ _ Hg c' j Hs' Hj) as [-> ->].
  rewrite E. auto.
Qed.
