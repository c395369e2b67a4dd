(** C09 on all ranks together; C51. *)
From Verif Require Import Common LayoutModel LayoutSpec LayoutProofs1 LayoutProofs2.
From Verif Require Import BlockModel BlockSpec BlockProofs1 LayoutProps.

Section Global.
  Context {V : Type}.
  Variables (lat : lattice) (bf : list Z).
  Hypothesis Hv : valid_lattice lat.
  Hypothesis Hb : blocking (l_size lat) bf.
  Local Notation blk := (blocked lat bf).

  Lemma block_from_global : forall (st old : Z -> Z -> V) F, represents lat st F ->
    exists st', (forall r, is_rank lat r -> block_from lat blk r (old r) (st r) = Some (st' r)) /\
      represents blk st' (fun x => F (times bf x)).
  Proof.
    intros st old F HF.
    exists (fun r => match block_from lat blk r (old r) (st r) with Some m => m | None => old r end).
    split.
    - intros r Hr. destruct (block_from_ok lat bf r Hv Hb Hr (old r) (st r)) as (m & -> & _). auto.
    - intros r x Hr0 Hx. assert (Hr : is_rank lat r) by exact Hr0.
      destruct (block_from_ok lat bf r Hv Hb Hr (old r) (st r)) as (m & -> & H1 & _).
      rewrite H1 by auto. apply HF; auto. apply holds_times; auto.
  Qed.

  Lemma unblock_to_global : forall (st sb : Z -> Z -> V) F G, represents lat st F ->
    represents blk sb G ->
    exists st', (forall r, is_rank lat r -> unblock_to lat blk r (sb r) (st r) = Some (st' r)) /\
      forall r c, is_rank lat r -> holds lat r c ->
        (forall x, is_site (l_size blk) x -> c = times bf x ->
           st' r (site_index (nodeinfo lat r) c) = G x) /\
        ((forall x, is_site (l_size blk) x -> c <> times bf x) ->
           st' r (site_index (nodeinfo lat r) c) = F c).
  Proof.
    intros st sb F G HF HG.
    exists (fun r => match unblock_to lat blk r (sb r) (st r) with Some m => m | None => st r end).
    split.
    - intros r Hr. destruct (unblock_to_ok lat bf r Hv Hb Hr (sb r) (st r)) as (m & -> & _). auto.
    - intros r c Hr Hc. destruct (unblock_to_ok lat bf r Hv Hb Hr (sb r) (st r)) as (m & -> & H1 & H2).
      split.
      + intros x Hx ->. assert (Hx' : holds blk r x).
        { apply blocked_holds; auto. destruct Hx as [Hx _]. rewrite Hx. apply size_blk_length; auto. }
        rewrite H1 by auto. apply HG; auto.
      + intros Hn. rewrite H2; [apply HF; auto|].
        intros x Hx E. apply (Hn x).
        * apply holds_is_site with (r := r); auto. apply blocked_valid; auto.
        * destruct (site_index_bijection lat r Hv Hr) as (_ & Hinj & _). apply Hinj; auto.
          apply holds_times; auto.
  Qed.

  Lemma site_divisible_dec : forall c, is_site (l_size lat) c ->
    (exists x, is_site (l_size blk) x /\ c = times bf x) \/
    (forall x, is_site (l_size blk) x -> c <> times bf x).
  Proof.
    intros c Hc. destruct (is_divisible c bf) eqn:E.
    - left. exists (element_div c bf). apply is_site_inside in Hc.
      apply (divisible_times (l_size lat)) in E; auto. split; auto.
      apply is_site_inside. unfold blocked, setup_blocked_lattice. cbn [l_size].
      apply times_inside; auto. rewrite E. split; auto.
      clear - Hc Hb. revert c Hc. induction Hb; intros c Hc; inversion Hc; subst; simpl; auto.
    - right. intros x Hx ->. destruct (times_divisible bf x) as [E1 _].
      + eapply blocking_pos; eauto.
      + destruct Hx as [Hx _]. rewrite Hx, size_blk_length by auto. symmetry. apply blocking_length; auto.
      + congruence.
  Qed.

  Lemma block_round_trip : forall (st old : Z -> Z -> V) F, represents lat st F ->
    exists sb st', (forall r, is_rank lat r -> block_from lat blk r (old r) (st r) = Some (sb r)) /\
      (forall r, is_rank lat r -> unblock_to lat blk r (sb r) (st r) = Some (st' r)) /\
      represents lat st' F.
  Proof.
    intros st old F HF. destruct (block_from_global st old F HF) as (sb & H1 & H2).
    destruct (unblock_to_global st sb F _ HF H2) as (st' & H3 & H4).
    exists sb, st'. split; auto. split; auto. intros r c Hr Hc.
    destruct (H4 r c Hr Hc) as [H5 H6].
    destruct (site_divisible_dec c (holds_is_site _ _ _ Hv Hr Hc)) as [(x & Hx & Ex)|Hn].
    - rewrite (H5 x Hx Ex), Ex. auto.
    - auto.
  Qed.

  (** A read on a rank that has blocked sites sees the new contents. *)
  Lemma read_after_ok : forall (st' : Z -> Z -> V) F' r d c c' g,
    represents lat st' F' -> is_rank lat r -> is_direction (l_size lat) d -> holds lat r c ->
    periodic_neighbour (l_size lat) c d c' ->
    (exists x, holds blk r x) ->
    read_after lat r d (site_index (nodeinfo lat r) c) (unblock_marks blk r g) st' = F' c'.
  Proof.
    intros st' F' r d c c' g HF Hr Hd Hc Hn [x Hx]. unfold unblock_marks.
    destruct (volume (nodeinfo blk r) =? 0) eqn:E.
    - apply Z.eqb_eq in E. elim (empty_blk lat bf r Hv Hb Hr E x Hx).
    - unfold read_after. apply C04_neighbour_read_after_gather; auto. exact I.
  Qed.
End Global.
