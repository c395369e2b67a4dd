(** One call of the collection of a face, edge or corner of the halo. *)
From Verif Require Import Common LayoutModel LayoutSpec LayoutProofs1 LayoutProofs2 LayoutProofs4 LayoutProofs8
  ElementModel LocalModel LocalSpec LocalProofs1 LocalProofs2.

Lemma add_at_nth : forall c k v j, (k < length c)%nat ->
  nth j (add_at k v c) 0 = if Nat.eqb j k then nth j c 0 + v else nth j c 0.
Proof.
  induction c as [|x c IH]; intros k v j H; [simpl in H; lia|].
  destruct k as [|k], j as [|j]; simpl; auto. apply IH. simpl in H. lia.
Qed.

Lemma add_at_len : forall c k v, length (add_at k v c) = length c.
Proof. induction c; destruct k; simpl; auto. Qed.

Section Out.
  Variables (lat : lattice).
  Hypothesis Hv : valid_lattice lat.
  Notation n := (length (l_size lat)).
  Notation lo r j := (nth j (lower lat r) 0).
  Notation ex r j := (nth j (extent lat r) 0).

  (** [c] is [x] moved out of the box of [r] in the directions [D]. *)
  Definition out (r : Z) (D : list nat) (x c : list Z) : Prop :=
    length x = n /\ length c = n /\
    forall j, (j < n)%nat ->
      (~ In j D -> nth j c 0 = nth j x 0) /\
      (In j D -> (nth j x 0 = lo r j /\ nth j c 0 = lo r j - 1) \/
                 (nth j x 0 <> lo r j /\ nth j x 0 = lo r j + ex r j - 1 /\ nth j c 0 = lo r j + ex r j)).

  Definition outside (r : Z) (c : list Z) (j : nat) : Prop :=
    ~ (lo r j <= nth j c 0 < lo r j + ex r j).

  Lemma outside_dec : forall r c j, outside r c j \/ ~ outside r c j.
  Proof. intros. unfold outside. lia. Qed.

  Lemma out_nil : forall r x, length x = n -> out r [] x x.
  Proof. intros r x H. split; auto. split; auto. simpl. tauto. Qed.

  Lemma out_det : forall r D x c c', out r D x c -> out r D x c' -> c = c'.
  Proof.
    intros r D x c c' (L & Lc & H) (_ & Lc' & H'). apply nth_ext with (d := 0) (d' := 0); [lia|].
    intros j Hj. specialize (H j ltac:(lia)). specialize (H' j ltac:(lia)).
    destruct (in_dec Nat.eq_dec j D) as [I|I].
    - destruct H as [_ H], H' as [_ H']. specialize (H I). specialize (H' I). lia.
    - destruct H as [H _], H' as [H' _]. rewrite H, H'; auto.
  Qed.

  Lemma out_outside : forall r D x c, holds lat r x -> out r D x c ->
    forall j, (j < n)%nat -> (In j D <-> outside r c j).
  Proof.
    intros r D x c (_ & _ & Hx) (L & Lc & H) j Hj. specialize (H j Hj).
    specialize (Hx j ltac:(lia)). unfold lower, extent, outside in *.
    destruct (in_dec Nat.eq_dec j D) as [I|I].
    - split; auto. intros _. destruct H as [_ H]. specialize (H I). unfold lower, extent in *. lia.
    - split; [tauto|]. destruct H as [H _]. rewrite H by auto. intros N. exfalso. apply N. exact Hx.
  Qed.

  Lemma out_inj : forall r D x x' c, holds lat r x -> holds lat r x' -> out r D x c -> out r D x' c -> x = x'.
  Proof.
    intros r D x x' c (_ & _ & Hx) (_ & _ & Hx') (L & Lc & H) (L' & _ & H').
    apply nth_ext with (d := 0) (d' := 0); [lia|]. intros j Hj.
    specialize (H j ltac:(lia)). specialize (H' j ltac:(lia)).
    specialize (Hx j ltac:(lia)). specialize (Hx' j ltac:(lia)). unfold lower, extent in *.
    destruct (in_dec Nat.eq_dec j D) as [I|I].
    - destruct H as [_ H], H' as [_ H']. specialize (H I). specialize (H' I). lia.
    - destruct H as [H _], H' as [H' _]. rewrite <- H, <- H'; auto.
  Qed.

  (** Inside the box with the halo. *)
  Definition extended (r : Z) (c : list Z) : Prop := in_region (outer_lower lat r) (outer_extent lat r) c.

  Lemma map_nth0 : forall (f : Z -> Z) l j, (j < length l)%nat -> nth j (map f l) 0 = f (nth j l 0).
  Proof. intros f l j H. rewrite nth_indep with (d' := f 0) by (rewrite map_length; auto). apply map_nth. Qed.

  Lemma extended_spec : forall r c, is_rank lat r ->
    (extended r c <-> length c = n /\
      forall j, (j < n)%nat -> lo r j - 1 <= nth j c 0 <= lo r j + ex r j).
  Proof.
    intros r c Hr. destruct (box_lengths lat r Hv) as [A B]. unfold extended, in_region, outer_lower, outer_extent.
    rewrite !map_length. unfold lower, extent. rewrite A, B. split.
    - intros (E & _ & H). split; auto. intros j Hj. specialize (H j ltac:(lia)).
      rewrite !map_nth0 in H by lia. lia.
    - intros (E & H). split; [auto|split; auto]. intros j Hj. specialize (H j ltac:(lia)).
      rewrite !map_nth0 by lia. lia.
  Qed.

  Lemma out_extended : forall r D x c, is_rank lat r -> holds lat r x -> out r D x c -> extended r c.
  Proof.
    intros r D x c Hr (_ & _ & Hx) (L & Lc & H). apply extended_spec; auto. split; auto.
    intros j Hj. specialize (H j Hj). specialize (Hx j ltac:(lia)). unfold lower, extent in *.
    destruct (in_dec Nat.eq_dec j D) as [I|I].
    - destruct H as [_ H]. specialize (H I). lia.
    - destruct H as [H _]. rewrite H by auto. lia.
  Qed.

  Lemma out_good : forall r D x c, is_rank lat r -> holds lat r x -> out r D x c -> ~ above_single_layer lat r c.
  Proof.
    intros r D x c Hr (_ & _ & Hx) (L & Lc & H) (j & Hj & E1 & E2). rewrite Lc in Hj.
    specialize (H j Hj). specialize (Hx j ltac:(lia)). unfold lower, extent in *.
    destruct (in_dec Nat.eq_dec j D) as [I|I].
    - destruct H as [_ H]. specialize (H I). lia.
    - destruct H as [H _]. rewrite H in E2 by auto. lia.
  Qed.

  (** The site of the box next to the coordinates [c]. *)
  Definition clamp (r : Z) (c : list Z) : list Z :=
    map (fun j => if nth j c 0 <? lo r j then lo r j
                  else if lo r j + ex r j <=? nth j c 0 then lo r j + ex r j - 1 else nth j c 0) (seq 0 n).

  Lemma clamp_nth : forall r c j, (j < n)%nat -> nth j (clamp r c) 0 =
    if nth j c 0 <? lo r j then lo r j
    else if lo r j + ex r j <=? nth j c 0 then lo r j + ex r j - 1 else nth j c 0.
  Proof.
    intros r c j Hj. unfold clamp.
    set (f := fun j => _). rewrite nth_indep with (d' := f O) by (rewrite map_length, seq_length; auto).
    rewrite map_nth, seq_nth; auto.
  Qed.

  Lemma clamp_out : forall r D c, is_rank lat r -> (forall j, (j < n)%nat -> 1 <= ex r j) ->
    extended r c -> ~ above_single_layer lat r c ->
    (forall j, (j < n)%nat -> (In j D <-> outside r c j)) ->
    holds lat r (clamp r c) /\ out r D (clamp r c) c.
  Proof.
    intros r D c Hr Hex He Hg HD. apply extended_spec in He; auto. destruct He as [Lc He].
    destruct (box_lengths lat r Hv) as [A B].
    assert (Lx : length (clamp r c) = n) by (unfold clamp; rewrite map_length, seq_length; auto).
    assert (Hg' : forall j, (j < n)%nat -> ex r j = 1 -> nth j c 0 <> lo r j + 1).
    { intros j Hj E1 E2. apply Hg. exists j. rewrite Lc. auto. }
    split.
    - split; [rewrite Lx; auto|]. split; [rewrite Lx; auto|]. intros j Hj. rewrite Lx in Hj.
      rewrite clamp_nth by auto. specialize (Hex j Hj). unfold lower, extent in *.
      destruct (Z.ltb_spec (nth j c 0) (nth j (n_min (nodeinfo lat r)) 0)); [lia|].
      destruct (Z.leb_spec (nth j (n_min (nodeinfo lat r)) 0 + nth j (n_siz (nodeinfo lat r)) 0) (nth j c 0)); lia.
    - split; [auto|]. split; [auto|]. intros j Hj. rewrite clamp_nth by auto.
      specialize (Hex j Hj). specialize (Hg' j Hj). specialize (He j Hj). rewrite HD by auto. unfold outside.
      destruct (Z.ltb_spec (nth j c 0) (lo r j)); [split; [lia|]; intros _; left; lia|].
      destruct (Z.leb_spec (lo r j + ex r j) (nth j c 0)); [|split; [lia|tauto]].
      split; [lia|]. intros _. right. split; [|lia]. intros E.
      assert (E1 : ex r j = 1) by lia. specialize (Hg' E1). lia.
  Qed.

  (** ** The moves made by the code *)

  Lemma move_false : forall ni D c, snd (fold_left (move_out ni) D (c, false)) = false.
  Proof.
    intros ni D. induction D as [|d D IH]; intros c; [reflexivity|]. cbn [fold_left]. unfold move_out at 2.
    destruct (_ =? _); [apply IH|]. destruct (_ =? _); apply IH.
  Qed.

  Definition move_result (r : Z) (D : list nat) (x : list Z) (s : list Z * bool) : Prop :=
    if snd s then out r D x (fst s) else forall c, ~ out r D x c.

  Lemma out_shorter : forall r D d x c, ~ In d D -> (d < n)%nat -> out r (D ++ [d]) x c ->
    out r D x (map (fun j => if Nat.eqb j d then nth j x 0 else nth j c 0) (seq 0 n)).
  Proof.
    intros r D d x c Hd Hn (L & Lc & H). split; [auto|].
    split; [rewrite map_length, seq_length; auto|]. intros j Hj. specialize (H j Hj).
    set (f := fun j => _). rewrite nth_indep with (d' := f O) by (rewrite map_length, seq_length; auto).
    rewrite map_nth, seq_nth by auto. unfold f. cbn [Nat.add].
    rewrite in_app_iff in H. cbn [In] in H. destruct (Nat.eqb_spec j d) as [->|N].
    - split; [auto|tauto].
    - destruct H as [H1 H2]. split; intros I; [apply H1|apply H2]; intuition.
  Qed.

  Lemma moves : forall r D x, is_rank lat r -> NoDup D -> (forall j, In j D -> (j < n)%nat) -> length x = n ->
    move_result r D x (fold_left (move_out (nodeinfo lat r)) D (x, true)).
  Proof.
    intros r D x Hr. induction D as [|d D IH] using rev_ind; intros HD Hn Lx.
    - unfold move_result. simpl. apply out_nil; auto.
    - assert (Hd : ~ In d D).
      { apply NoDup_remove_2 in HD. rewrite app_nil_r in HD. auto. }
      assert (HD' : NoDup D) by (apply NoDup_remove_1 in HD; rewrite app_nil_r in HD; auto).
      assert (Hdn : (d < n)%nat) by (apply Hn, in_app_iff; right; left; auto).
      specialize (IH HD' ltac:(intros; apply Hn, in_app_iff; auto) Lx).
      rewrite fold_left_app. cbn [fold_left].
      destruct (fold_left (move_out (nodeinfo lat r)) D (x, true)) as [c g]. unfold move_result in *.
      cbn [fst snd] in IH. unfold move_out.
      assert (Hshort : g = true -> forall c', out r (D ++ [d]) x c' ->
                nth d x 0 = nth d c 0 /\
                (nth d c 0 = lo r d \/ nth d c 0 = lo r d + ex r d - 1)).
      { intros -> c' H'. destruct IH as (_ & Lc & H). destruct (H d Hdn) as [E _]. specialize (E Hd).
        destruct H' as (_ & _ & H'). destruct (H' d Hdn) as [_ H2].
        specialize (H2 ltac:(apply in_app_iff; right; left; auto)). lia. }
      assert (Hfalse : g = false -> forall c', ~ out r (D ++ [d]) x c').
      { intros -> c' H'. apply out_shorter in H'; auto. eapply IH; eauto. }
      assert (Hadd : forall v, g = true -> (v = -1 /\ nth d c 0 = lo r d) \/
                  (v = 1 /\ nth d c 0 <> lo r d /\ nth d c 0 = lo r d + ex r d - 1) ->
                out r (D ++ [d]) x (add_at d v c)).
      { intros v -> Hvv. destruct IH as (_ & Lc & H). split; [auto|]. split; [rewrite add_at_len; auto|].
        intros j Hj. specialize (H j Hj). rewrite add_at_nth by lia. rewrite in_app_iff. cbn [In].
        destruct (Nat.eqb_spec j d) as [->|N].
        - split; [tauto|]. intros _. destruct H as [H _]. specialize (H Hd). rewrite <- H. lia.
        - destruct H as [H1 H2]. split; intros I; [apply H1; tauto|apply H2; destruct I as [I|[->|[]]]; tauto]. }
      unfold node_max. fold (lower lat r) (extent lat r).
      destruct (Z.eqb_spec (nth d c 0) (lo r d)) as [E|E].
      + cbn [fst snd]. destruct g; auto.
      + destruct (Z.eqb_spec (nth d c 0) (lo r d + ex r d - 1)) as [E'|E'].
        * cbn [fst snd]. destruct g; [apply Hadd; auto|auto].
        * cbn [snd]. destruct g; auto. intros c' H'. specialize (Hshort eq_refl c' H'). lia.
  Qed.
End Out.
